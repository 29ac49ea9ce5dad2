(** * Properties of VortexLine.py: C60-C62 *)
From Coquelicot Require Import Coquelicot.
From Coq Require Import ZArith List Bool Arith Lia String Reals Lra Psatz.
From Verif Require Import Num NumR NumX M_Line M_Cylinder L_List L_X Spec SpecBS L_Calc.
Import ListNotations.
Local Open Scope R_scope.

Definition xv (a : R3) : XN * XN * XN := (Fin (px a) : XN, Fin (py a) : XN, Fin (pz a) : XN).

Lemma inner_pos a : 0 <= inner a a.
Proof. destruct a as [[x y] z]. unfold inner, px, py, pz. cbn. pose proof (Rsq_pos x). pose proof (Rsq_pos y). pose proof (Rsq_pos z). lra. Qed.
Lemma length3_sq a : length3 a * length3 a = inner a a.
Proof. apply sqrt_sqrt, inner_pos. Qed.
Lemma length3_pos a : 0 <= length3 a.
Proof. apply sqrt_pos. Qed.
(** Lagrange's identity / Cauchy-Schwarz *)
Lemma lagrange a b : inner (vprod a b) (vprod a b) = inner a a * inner b b - inner a b * inner a b.
Proof. destruct a as [[a1 a2] a3], b as [[b1 b2] b3]. unfold inner, vprod, px, py, pz. cbn. ring. Qed.

(** ** The integral of the half line *)
Definition klineR (G : R) (e a : R3) : R3 :=
  scal3 (G / (4 * PI * (length3 a * (length3 a - inner a e)))) (vprod e a).

Lemma dist_line e a s : unit3 e -> inner (sub3 a (scal3 s e)) (sub3 a (scal3 s e)) = inner a a - 2 * inner a e * s + s * s.
Proof.
  unfold unit3. destruct a as [[a1 a2] a3], e as [[e1 e2] e3]. unfold inner, sub3, scal3, px, py, pz. cbn. intros H.
  replace (s * s) with (s * s * 1) by ring. rewrite <- H. ring.
Qed.
Lemma cross_line e a s : vprod e (sub3 a (scal3 s e)) = vprod e a.
Proof.
  destruct a as [[a1 a2] a3], e as [[e1 e2] e3]. unfold vprod, sub3, scal3, px, py, pz. cbn. f_equal; [f_equal|]; ring.
Qed.
Lemma bs_line e a s : unit3 e -> let q := inner a a - 2 * inner a e * s + s * s in
  bs_kernel a (add3 zero (scal3 s e)) e = scal3 (/ (4 * PI * (q * sqrt q))) (vprod e a).
Proof.
  intros U q. unfold bs_kernel.
  assert (E : sub3 a (add3 zero (scal3 s e)) = sub3 a (scal3 s e)).
  { destruct a as [[a1 a2] a3], e as [[e1 e2] e3]. unfold sub3, add3, scal3, zero, px, py, pz. cbn. f_equal; [f_equal|]; ring. }
  rewrite E, cross_line. f_equal. f_equal. f_equal. unfold length3. rewrite dist_line by auto. fold q.
  assert (0 <= q) by (unfold q; rewrite <- dist_line by auto; apply inner_pos).
  cbn [pow]. rewrite Rmult_1_r, <- Rmult_assoc. rewrite sqrt_sqrt by auto. reflexivity.
Qed.
Lemma cauchy e a : unit3 e -> inner a e * inner a e <= inner a a.
Proof.
  intros U. pose proof (lagrange a e) as L. unfold unit3 in U. rewrite U in L.
  pose proof (inner_pos (vprod a e)). lra.
Qed.
Lemma vprod_zero e a : inner (vprod e a) (vprod e a) = 0 -> vprod e a = zero.
Proof.
  destruct (vprod e a) as [[x y] z]. unfold inner, zero, px, py, pz. cbn. intros H.
  pose proof (Rsq_pos x). pose proof (Rsq_pos y). pose proof (Rsq_pos z).
  assert (Hx : x * x = 0) by lra. assert (Hy : y * y = 0) by lra. assert (Hz : z * z = 0) by lra.
  destruct (Rmult_integral _ _ Hx), (Rmult_integral _ _ Hy), (Rmult_integral _ _ Hz); subst; reflexivity.
Qed.
(** off the half line the closed form is the Biot-Savart integral *)
Lemma half_line G e a : unit3 e -> 0 < length3 a * (length3 a - inner a e) ->
  half_line_velocity G zero e a (klineR G e a).
Proof.
  intros U D. pose proof PI_RGT_0 as HP. pose proof (length3_pos a) as L0. pose proof (length3_sq a) as L2.
  assert (La : 0 < length3 a).
  { destruct L0 as [L0|L0]; [exact L0|]. rewrite <- L0 in D. exfalso. lra. }
  assert (Lb : 0 < length3 a - inner a e).
  { apply Rmult_lt_reg_l with (length3 a); [exact La|]. lra. }
  pose proof (cauchy e a U) as CS.
  assert (K : forall c : R3 -> R, (forall k v, c (scal3 k v) = k * c v) ->
     is_RInt_gen (fun s => G * c (bs_kernel a (add3 zero (scal3 s e)) e)) (at_point 0) (Rbar_locally p_infty) (c (klineR G e a))).
  { intros c Hc. destruct CS as [CS|CS].
    - assert (HD : 0 < inner a a - inner a e * inner a e) by lra.
      pose proof (half_integral (inner a a) (inner a e) HD) as HI.
      apply (is_RInt_gen_scal _ (G * c (vprod e a) / (4 * PI))) in HI.
      replace (c (klineR G e a)) with (scal (G * c (vprod e a) / (4 * PI)) ((1 + inner a e / sqrt (inner a a)) / (inner a a - inner a e * inner a e))).
      + eapply is_RInt_gen_ext; [|exact HI]. apply filter_forall. intros ab s _. rewrite bs_line by auto. rewrite Hc.
        unfold scal; cbn; unfold mult; cbn.
        assert (Q : 0 < inner a a - 2 * inner a e * s + s * s).
        { replace (inner a a - 2 * inner a e * s + s * s) with ((inner a a - inner a e * inner a e) + (s - inner a e) * (s - inner a e)) by ring.
          pose proof (Rsq_pos (s - inner a e)). lra. }
        assert (0 < sqrt (inner a a - 2 * inner a e * s + s * s)) by (apply sqrt_lt_R0; auto). field. repeat split; lra.
      + unfold klineR. rewrite Hc. fold (length3 a). unfold scal; cbn; unfold mult; cbn. rewrite <- L2 in *.
        replace (length3 a * length3 a - inner a e * inner a e) with ((length3 a - inner a e) * (length3 a + inner a e)) in * by ring.
        assert (length3 a + inner a e <> 0) by (intros E; rewrite E in HD; lra).
        field. repeat split; lra.
    - assert (Z : vprod e a = zero).
      { apply vprod_zero. rewrite lagrange. unfold unit3 in U. rewrite U.
        replace (inner e a) with (inner a e) by (unfold inner; ring). lra. }
      unfold klineR. rewrite Hc, Z. assert (Cz : c zero = 0).
      { replace zero with (scal3 0 zero) by (unfold scal3, zero, px, py, pz; cbn; f_equal; [f_equal|]; ring). rewrite Hc. ring. }
      rewrite Cz, Rmult_0_r.
      apply is_RInt_gen_ext with (fun _ => 0).
      { apply filter_forall. intros ab s _. rewrite bs_line by auto. rewrite Hc, Z, Cz. symmetry. rewrite !Rmult_0_r. reflexivity. }
      assert (I := fun H1 H2 H3 => improper_antideriv (fun _ => 0) (fun _ => 0) 0 0 H1 H2 H3). cbn in I. rewrite Rminus_0_r in I. apply I.
      + intros. apply (is_derive_const 0).
      + intros. apply continuous_const.
      + apply is_lim_const. }
  split; [|split]; apply K; intros k v; reflexivity.
Qed.
(** the value is unique *)
Lemma half_line_unique G p0 e a u v : half_line_velocity G p0 e a u -> half_line_velocity G p0 e a v -> u = v.
Proof.
  intros (A1 & A2 & A3) (B1 & B2 & B3).
  pose proof (is_RInt_gen_unique _ _ A1). pose proof (is_RInt_gen_unique _ _ A2). pose proof (is_RInt_gen_unique _ _ A3).
  pose proof (is_RInt_gen_unique _ _ B1). pose proof (is_RInt_gen_unique _ _ B2). pose proof (is_RInt_gen_unique _ _ B3).
  destruct u as [[u1 u2] u3], v as [[v1 v2] v3]. unfold px, py, pz in *. cbn in *. congruence.
Qed.

(** ** C60 *)
Lemma vl_X G e a (vm : Z) t : (vm = 0 \/ vm = 5)%Z ->
  vl_semiinf_u (N := XN) (Fin (px a)) (Fin (py a)) (Fin (pz a)) (Fin (px e)) (Fin (py e)) (Fin (pz e)) (Fin G) vm (Fin t) =
  let d := length3 a * (length3 a - inner a e) in
  if (Rltb d (1/1000000000000) || Rltb (length3 a) (1/100000))%bool then Ok VLsing
  else let den := if (vm =? 5)%Z then d + t else d in
       let K := xdiv (Fin (G * 1 / 4 / PI)) (Fin den) in
       Ok (VLvec (N := XN) (xmul K (Fin (px (vprod e a)))) (xmul K (Fin (py (vprod e a)))) (xmul K (Fin (pz (vprod e a))))).
Proof.
  intros Hv. pose proof PI_RGT_0 as HP. destruct a as [[a1 a2] a3], e as [[e1 e2] e3].
  unfold vl_semiinf_u, px, py, pz, vprod, inner. cbn [fst snd].
  pose proof (inner_pos (a1,a2,a3)) as IP. unfold inner, px, py, pz in IP. cbn [fst snd] in IP.
  xfin lra. change (sqrt (a1 * a1 + a2 * a2 + a3 * a3)) with (length3 (a1,a2,a3)).
  cbv zeta. destruct (_ || _)%bool; [reflexivity|].
  destruct Hv as [-> | ->]; cbn [Z.leb Z.compare Pos.compare Pos.compare_cont andb Z.eqb Pos.eqb]; xn; reflexivity.
Qed.
Theorem C60_half_line_biot_savart :
  forall (G t : R) (e a : R3), unit3 e ->
  let d := length3 a * (length3 a - inner a e) in   (* 0 exactly on the half line *)
  let answer := vl_semiinf_u (N := XN) (Fin (px a)) (Fin (py a)) (Fin (pz a)) (Fin (px e)) (Fin (py e)) (Fin (pz e)) (Fin G) 0 (Fin t) in
  (1/1000000000000 <= d -> 1/100000 <= length3 a ->
     exists u, answer = Ok (VLvec (N := XN) (Fin (px u)) (Fin (py u)) (Fin (pz u))) /\ half_line_velocity G zero e a u) /\
  (d < 1/1000000000000 \/ length3 a < 1/100000 -> answer = Ok VLsing).
Proof.
  intros G t e a U d answer. subst answer. rewrite vl_X by auto. cbv zeta. fold d. split.
  - intros H1 H2. exists (klineR G e a). split; [|apply half_line; auto; fold d; lra].
    rewrite (proj2 (Rltb_false d _)), (proj2 (Rltb_false (length3 a) _)) by auto. cbn [orb Z.eqb].
    pose proof PI_RGT_0. rewrite xdiv_fin by lra. cbn [xmul]. unfold klineR. fold d.
    destruct (vprod e a) as [[v1 v2] v3]. unfold scal3, px, py, pz. cbn [fst snd].
    f_equal. f_equal; f_equal; field; split; lra.
  - intros [H|H].
    + rewrite (proj2 (Rltb_true d _)) by auto. reflexivity.
    + rewrite (proj2 (Rltb_true (length3 a) _)) by auto. rewrite orb_true_r. reflexivity.
Qed.
(** the half line itself is where [d] vanishes *)
Lemma on_half_line e a : unit3 e -> (length3 a * (length3 a - inner a e) <= 0 <-> exists s, 0 <= s /\ a = scal3 s e).
Proof.
  intros U. pose proof (length3_pos a) as L0. pose proof (length3_sq a) as L2. pose proof (cauchy e a U) as CS. split.
  - intros H. exists (length3 a). split; auto.
    assert (E : inner a e = length3 a).
    { destruct L0 as [L0|L0].
      - assert (length3 a <= inner a e) by nra. rewrite <- L2 in CS. nra.
      - rewrite <- L0 in *. rewrite <- L2, Rmult_0_l in CS. pose proof (Rsq_pos (inner a e)).
        assert (inner a e * inner a e = 0) by lra. destruct (Rmult_integral _ _ H1); lra. }
    assert (Q : inner (sub3 a (scal3 (length3 a) e)) (sub3 a (scal3 (length3 a) e)) = 0).
    { rewrite dist_line by auto. rewrite E, <- L2. ring. }
    revert Q. destruct a as [[a1 a2] a3], e as [[e1 e2] e3]. set (l := length3 _). unfold inner, sub3, scal3, px, py, pz. cbn. intros Q.
    pose proof (Rsq_pos (a1 - l * e1)). pose proof (Rsq_pos (a2 - l * e2)). pose proof (Rsq_pos (a3 - l * e3)).
    assert (Q1 : (a1 - l * e1) * (a1 - l * e1) = 0) by lra. assert (Q2 : (a2 - l * e2) * (a2 - l * e2) = 0) by lra.
    assert (Q3 : (a3 - l * e3) * (a3 - l * e3) = 0) by lra.
    destruct (Rmult_integral _ _ Q1), (Rmult_integral _ _ Q2), (Rmult_integral _ _ Q3); f_equal; [f_equal| | f_equal| | f_equal| | f_equal| | f_equal | |f_equal| |f_equal| |f_equal|]; lra.
  - intros (s & Hs & ->). unfold unit3 in U.
    assert (I1 : inner (scal3 s e) e = s) by (transitivity (s * inner e e); [unfold inner, scal3, px, py, pz; cbn; ring|rewrite U; ring]).
    assert (I2 : length3 (scal3 s e) = s).
    { unfold length3. replace (inner (scal3 s e) (scal3 s e)) with (s * s * inner e e) by (unfold inner, scal3, px, py, pz; cbn; ring).
      rewrite U, Rmult_1_r. apply sqrt_square; auto. }
    rewrite I1, I2. rewrite Rminus_eq_0. lra.
Qed.

(** the straight version: filament along +z from the origin *)
Definition ez : R3 := (0, 0, 1).
Lemma ez_unit : unit3 ez.
Proof. unfold unit3, inner, ez, px, py, pz. cbn. ring. Qed.
Lemma straight_X G x y z : x * x + y * y <> 0 ->
  vl_semiinf_straight_u (N := XN) (Fin G) false (Fin x, Fin y, Fin z) = xv (klineR G ez (x, y, z)).
Proof.
  intros H. pose proof PI_RGT_0 as HP. pose proof (Rsq_pos x). pose proof (Rsq_pos y). pose proof (Rsq_pos z).
  destruct (Ratan2_polar y x H) as [PC PS].
  set (r := sqrt (x * x + y * y)) in *. assert (Hr : 0 < r) by (apply sqrt_lt_R0; lra).
  assert (Er : r * r = x * x + y * y) by (apply sqrt_sqrt; lra).
  assert (EL : length3 (x, y, z) = sqrt (r * r + z * z)).
  { unfold length3, inner, px, py, pz. cbn. f_equal. lra. }
  assert (HL : 0 < sqrt (r * r + z * z)) by (apply sqrt_lt_R0; lra).
  assert (EL2 : sqrt (r * r + z * z) * sqrt (r * r + z * z) = r * r + z * z) by (apply sqrt_sqrt; lra).
  assert (D : sqrt (r * r + z * z) - z <> 0). { intros E. assert (sqrt (r * r + z * z) = z) by lra. rewrite H3 in EL2. nra. }
  unfold vl_semiinf_straight_u, vl_semiinf_straight_u_polar, vl_straight_cart_of_polar. cbv zeta.
  change (neqb XN (Fin G) (nZ XN 0)) with (Reqb G 0).
  assert (ER : nsqrt XN (nadd XN (sq (Fin x : XN)) (sq (Fin y : XN))) = Fin r) by (xn; rewrite xsqrt_fin by lra; reflexivity).
  rewrite ER. unfold xv, klineR. rewrite EL.
  assert (EI : inner (x,y,z) ez = z) by (unfold inner, ez, px, py, pz; cbn; ring). rewrite EI.
  assert (EV : vprod ez (x,y,z) = (- y, x, 0)) by (unfold vprod, ez, px, py, pz; cbn; f_equal; [f_equal|]; ring). rewrite EV.
  destruct (Reqb_spec G 0) as [->|HG].
  - xn. unfold scal3, px, py, pz. cbn. f_equal; [f_equal|]; f_equal; field; repeat split; lra.
  - assert (4 * PI * r <> 0) by (assert (0 < 4 * PI * r) by (apply Rmult_lt_0_compat; lra); lra).
    xfin lra. cbn [natan2 XN xatan2]. unfold scal3, px, py, pz. cbn [fst snd xmul xsin xcos].
    set (w := sqrt (r * r + z * z)) in *.
    assert (EW : G / (4 * PI * (w * (w - z))) = G / (4 * PI * r) * (1 + z / w) / r).
    { assert (F : r * r = (w - z) * (w + z)) by lra.
      assert (Hw : w + z <> 0) by (intros E; rewrite E, Rmult_0_r in F; pose proof (Rmult_lt_0_compat r r Hr Hr); lra).
      transitivity (G * (w + z) / (4 * PI * w * (r * r))); [rewrite F|]; field; repeat split; lra. }
    rewrite EW. rewrite <- PC at 3. rewrite <- PS at 3.
    f_equal; [f_equal|]; f_equal; field; repeat split; lra.
Qed.
Theorem C60_straight_biot_savart :
  forall G x y z, x * x + y * y <> 0 ->
  exists u, vl_semiinf_straight_u (N := XN) (Fin G) false (Fin x, Fin y, Fin z) = xv u /\
    half_line_velocity G zero (0, 0, 1) (x, y, z) u.
Proof.
  intros G x y z H. exists (klineR G ez (x,y,z)). split; [apply straight_X; auto|].
  apply (half_line G ez (x,y,z) ez_unit).
  pose proof (Rsq_pos x). pose proof (Rsq_pos y). pose proof (Rsq_pos z).
  assert (EL2 : length3 (x,y,z) * length3 (x,y,z) = x * x + y * y + z * z) by (rewrite length3_sq; reflexivity).
  pose proof (length3_pos (x,y,z)). set (l := length3 (x,y,z)) in *.
  replace (inner (x,y,z) ez) with z by (unfold inner, ez, px, py, pz; cbn; ring).
  apply Rmult_lt_0_compat; nra.
Qed.
Theorem C60_agree :
  forall G t x y z, x * x + y * y <> 0 ->
  let l := sqrt (x * x + y * y + z * z) in
  1/1000000000000 <= l * (l - z) -> 1/100000 <= l ->
  exists o, vl_semiinf_u (N := XN) (Fin x) (Fin y) (Fin z) (Fin 0) (Fin 0) (Fin 1) (Fin G) 0 (Fin t) = Ok o /\
    vl_semiinf_straight_u (N := XN) (Fin G) false (Fin x, Fin y, Fin z) = vl_vec o.
Proof.
  intros G t x y z H l H1 H2.
  assert (EI : inner (x,y,z) ez = z) by (unfold inner, ez, px, py, pz; cbn; ring).
  destruct (C60_half_line_biot_savart G t ez (x,y,z) ez_unit) as [K _].
  rewrite EI in K. destruct (K H1 H2) as (u & E & B). eexists. split; [exact E|].
  destruct (C60_straight_biot_savart G x y z H) as (v & E' & B'). rewrite E'. cbn [vl_vec].
  rewrite (half_line_unique _ _ _ _ _ _ B' B). reflexivity.
Qed.
Example C60_nonvacuous : unit3 (0, 0, 1) /\ 3 * 3 + 4 * 4 <> 0 /\ 1/1000000000000 <= 5 * (5 - 0) /\ sqrt (3 * 3 + 4 * 4 + 0 * 0) = 5.
Proof. split; [apply ez_unit|]. split; [lra|]. split; [lra|]. replace (3*3+4*4+0*0) with (5*5) by ring. apply sqrt_square. lra. Qed.

(** ** C61 *)
Definition C96_full : Prop := forall (vm : Z) (G t : R) (e a : R3), (0 <= vm <= 5)%Z -> unit3 e -> 0 < t ->
  exists o, vl_semiinf_u (N := XN) (Fin (px a)) (Fin (py a)) (Fin (pz a)) (Fin (px e)) (Fin (py e)) (Fin (pz e)) (Fin G) vm (Fin t) = Ok o.
(** the core models 1-4 fail with NameError at every point away from the line *)
Theorem C96_core_models_refuted : ~ C96_full /\
  forall (vm : Z) (G t : R) (e a : R3), (1 <= vm <= 4)%Z ->
    1/1000000000000 <= length3 a * (length3 a - inner a e) -> 1/100000 <= length3 a ->
    vl_semiinf_u (N := XN) (Fin (px a)) (Fin (py a)) (Fin (pz a)) (Fin (px e)) (Fin (py e)) (Fin (pz e)) (Fin G) vm (Fin t) = Err (ENameError "xb").
Proof.
  assert (K : forall (vm : Z) (G t : R) (e a : R3), (1 <= vm <= 4)%Z ->
    1/1000000000000 <= length3 a * (length3 a - inner a e) -> 1/100000 <= length3 a ->
    vl_semiinf_u (N := XN) (Fin (px a)) (Fin (py a)) (Fin (pz a)) (Fin (px e)) (Fin (py e)) (Fin (pz e)) (Fin G) vm (Fin t) = Err (ENameError "xb")).
  { intros vm G t e a Hv H1 H2. destruct a as [[a1 a2] a3], e as [[e1 e2] e3].
    unfold vl_semiinf_u. unfold inner in H1. unfold px, py, pz in *. cbn [fst snd] in *.
    pose proof (inner_pos (a1,a2,a3)) as IP. unfold inner, px, py, pz in IP. cbn [fst snd] in IP.
    xfin lra. change (sqrt (a1 * a1 + a2 * a2 + a3 * a3)) with (length3 (a1,a2,a3)).
    rewrite (proj2 (Rltb_false _ _)) by auto. rewrite (proj2 (Rltb_false _ _)) by auto. cbn [orb].
    rewrite (proj2 (Z.leb_le 1 vm)), (proj2 (Z.leb_le vm 4)) by lia. reflexivity. }
  split; auto. intros H.
  destruct (H 1%Z 1 1 (0,0,1) (1,0,0)) as (o & E); [lia|apply ez_unit|lra|].
  assert (L : length3 (1,0,0) = 1).
  { unfold length3, inner, px, py, pz. cbn. replace (1*1+0*0+0*0) with (1*1) by ring. apply sqrt_square; lra. }
  rewrite K in E; [discriminate|lia| |]; rewrite L; [unfold inner, px, py, pz; cbn; lra|lra].
Qed.
(** models 0 and 5 work everywhere, and the core of model 5 only reduces the velocity *)
Theorem C61_models_0_5 : forall (G t : R) (e a : R3), 0 <= t ->
  exists (o5 o0 : R3),
  (exists w, vl_semiinf_u (N := XN) (Fin (px a)) (Fin (py a)) (Fin (pz a)) (Fin (px e)) (Fin (py e)) (Fin (pz e)) (Fin G) 5 (Fin t) = Ok w /\ vl_vec w = xv o5) /\
  (exists w, vl_semiinf_u (N := XN) (Fin (px a)) (Fin (py a)) (Fin (pz a)) (Fin (px e)) (Fin (py e)) (Fin (pz e)) (Fin G) 0 (Fin t) = Ok w /\ vl_vec w = xv o0) /\
  exists k, 0 < k <= 1 /\ o5 = scal3 k o0 /\ (0 < t -> o0 <> zero -> k < 1).
Proof.
  intros G t e a Ht. rewrite !vl_X by auto. cbv zeta. set (d := length3 a * (length3 a - inner a e)).
  pose proof PI_RGT_0 as HP.
  destruct (Rltb_spec d (1/1000000000000)) as [H|H]; [|destruct (Rltb_spec (length3 a) (1/100000)) as [H'|H']]; cbn [orb].
  1,2: exists zero, zero; split; [eexists; split; reflexivity|]; split; [eexists; split; reflexivity|];
       exists 1; split; [lra|]; split; [unfold scal3, zero, px, py, pz; cbn; f_equal; [f_equal|]; ring|]; intros _ X0; congruence.
  cbn [Z.eqb Pos.eqb]. rewrite !xdiv_fin by lra. cbn [xmul].
  exists (scal3 (G * 1 / 4 / PI / (d + t)) (vprod e a)), (scal3 (G * 1 / 4 / PI / d) (vprod e a)).
  split; [eexists; split; reflexivity|]. split; [eexists; split; reflexivity|].
  exists (d / (d + t)). split; [|split].
  - split; [apply Rdiv_lt_0_compat; lra|]. apply (Rmult_le_reg_r (d + t)); [lra|]. unfold Rdiv. rewrite Rmult_assoc, Rinv_l by lra. lra.
  - destruct (vprod e a) as [[v1 v2] v3]. unfold scal3, px, py, pz. cbn. f_equal; [f_equal|]; field; repeat split; lra.
  - intros Ht' _. apply (Rmult_lt_reg_r (d + t)); [lra|]. unfold Rdiv. rewrite Rmult_assoc, Rinv_l by lra. lra.
Qed.

(** ** C62 *)
Definition finite3 (v : XN * XN * XN) : Prop := exists u : R3, v = xv u.
Definition C62_full : Prop := forall G x y z, finite3 (vl_semiinf_straight_u (N := XN) (Fin G) false (Fin x, Fin y, Fin z)).
Theorem C62_finite_off_axis_partial : forall G x y z, (x, y) <> (0, 0) \/ G = 0 ->
  finite3 (vl_semiinf_straight_u (N := XN) (Fin G) false (Fin x, Fin y, Fin z)).
Proof.
  intros G x y z [H|HG0].
  - exists (klineR G ez (x,y,z)). apply straight_X. intros E. pose proof (Rsq_pos x). pose proof (Rsq_pos y).
    assert (Ex : x * x = 0) by lra. assert (Ey : y * y = 0) by lra.
    destruct (Rmult_integral _ _ Ex), (Rmult_integral _ _ Ey); subst; congruence.
  - rewrite HG0. pose proof (Rsq_pos x). pose proof (Rsq_pos y).
    unfold vl_semiinf_straight_u, vl_semiinf_straight_u_polar, vl_straight_cart_of_polar. cbv zeta.
    change (neqb XN (Fin 0) (nZ XN 0)) with (Reqb 0 0). rewrite (proj2 (Reqb_true 0 0)) by reflexivity.
    xfin lra. exists (sqrt (x*x+y*y) * 0, sqrt (x*x+y*y) * 0, sqrt (x*x+y*y) * 0). reflexivity.
Qed.
(** on the axis the result is NaN, for every non-zero circulation and every z *)
Theorem C62_axis_refuted : ~ C62_full /\
  forall G z, G <> 0 -> exists uy uz, vl_semiinf_straight_u (N := XN) (Fin G) false (Fin 0, Fin 0, Fin z) = ((NaN : XN), uy, uz).
Proof.
  assert (K : forall G z, G <> 0 -> exists uy uz, vl_semiinf_straight_u (N := XN) (Fin G) false (Fin 0, Fin 0, Fin z) = ((NaN : XN), uy, uz)).
  { intros G z HG. pose proof PI_RGT_0. do 2 eexists.
    unfold vl_semiinf_straight_u, vl_semiinf_straight_u_polar, vl_straight_cart_of_polar. cbv zeta.
    change (neqb XN (Fin G) (nZ XN 0)) with (Reqb G 0). rewrite (proj2 (Reqb_false G 0)) by auto.
    assert (ER : nsqrt XN (nadd XN (sq (Fin 0 : XN)) (sq (Fin 0 : XN))) = Fin 0).
    { xn. rewrite xsqrt_fin by lra. replace (0*0+0*0) with 0 by ring. now rewrite sqrt_0. }
    rewrite ER. match goal with |- (?a, _, _) = _ => assert (E : a = NaN) end; [|rewrite E; reflexivity].
    assert (ES : nopp XN (nsin XN (natan2 XN (Fin 0) (Fin 0))) = Fin 0).
    { cbn. unfold Ratan2. replace (0*0+0*0) with 0 by ring. destruct (Req_EM_T 0 0); [|congruence]. rewrite sin_0. f_equal. ring. }
    rewrite ES.
    assert (E0 : ndiv XN (Fin G) (nmul XN (nmul XN (nZ XN 4) (npi XN)) (Fin 0)) = xinf_mul true G).
    { xn. rewrite Rmult_0_r. cbn. rewrite (proj2 (Reqb_true 0 0)) by reflexivity. reflexivity. }
    rewrite E0. unfold xinf_mul.
    set (f := nadd XN _ _).
    destruct (Rltb_spec 0 G) as [Hp|Hp]; [|destruct (Rltb_spec G 0) as [Hm|Hm]; [|lra]]; cbn [xinf_sgn negb];
      destruct f as [v| | |]; cbn; unfold xinf_mul; rewrite ?(proj2 (Rltb_false 0 0)) by lra; auto;
      destruct (Rltb 0 v); [|destruct (Rltb v 0)| |destruct (Rltb v 0)]; cbn; rewrite ?(proj2 (Rltb_false 0 0)) by lra; reflexivity. }
  split; auto. intros H. destruct (K 1 0 ltac:(lra)) as (uy & uz & E). destruct (H 1 0 0 0) as (u & E'). rewrite E in E'.
  unfold xv in E'. injection E'. discriminate.
Qed.
