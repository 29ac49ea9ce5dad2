(** * Properties of SelfSimilar.py and VortexPoint.py: C70-C73 *)
From Coq Require Import ZArith List Bool Arith Lia String Reals Lra Psatz.
From Verif Require Import Num NumR NumX M_Misc L_List L_X.
Import ListNotations.
Local Open Scope R_scope.
Local Notation len := List.length.

Lemma sqpos a : 0 <= a * a.
Proof. apply Rle_0_sqr. Qed.
Lemma sqpos_lt a : a <> 0 -> 0 < a * a.
Proof. apply Rsqr_pos_lt. Qed.
Lemma Rinv_le_1 x : 1 <= x -> 0 < / x <= 1.
Proof. intros H. split; [apply Rinv_0_lt_compat; lra|]. rewrite <- Rinv_1. apply Rinv_le_contravar; lra. Qed.

(** ** hyperbolic cosine and powers *)
Lemma exp_incr x y : x <= y -> exp x <= exp y.
Proof. intros [H| ->]; [left; now apply exp_increasing|lra]. Qed.
Lemma cosh_incr a b : 0 <= a -> a < b -> cosh a < cosh b.
Proof.
  intros Ha Hb. unfold cosh.
  pose proof (exp_increasing a b Hb) as E. pose proof (exp_pos a). pose proof (exp_pos b).
  pose proof (exp_pos (-a)). pose proof (exp_pos (-b)).
  assert (E1 : exp a * exp (-a) = 1) by (rewrite <- exp_plus, Rplus_opp_r; apply exp_0).
  assert (E2 : exp b * exp (-b) = 1) by (rewrite <- exp_plus, Rplus_opp_r; apply exp_0).
  assert (1 <= exp a) by (rewrite <- exp_0; apply exp_incr; lra).
  (* (exp b - exp a)(1 - exp(-a)exp(-b)) > 0 *)
  assert (exp (-a) <= 1) by nra. assert (exp (-b) < 1) by nra.
  assert (exp (-a) * exp (-b) < 1) by nra.
  assert (0 < (exp b - exp a) * (1 - exp (-a) * exp (-b))) by (apply Rmult_lt_0_compat; lra).
  replace (exp b + exp (-b)) with (exp a + exp (-a) + (exp b - exp a) * (1 - exp (-a) * exp (-b))); [lra|].
  replace ((exp b - exp a) * (1 - exp (-a) * exp (-b))) with
    (exp b - exp a - (exp b * exp (-b)) * exp (-a) + (exp a * exp (-a)) * exp (-b)) by ring.
  rewrite E1, E2. ring.
Qed.
Lemma cosh_ge_1 a : 0 <= a -> 1 <= cosh a.
Proof. intros [H| <-]; [|rewrite cosh_0; lra]. rewrite <- cosh_0. left. apply cosh_incr; lra. Qed.
Lemma Rpower_base a b e : 0 < e -> 0 < a < b -> Rpower a e < Rpower b e.
Proof. intros. apply Rlt_Rpower_l; lra. Qed.

(** ** C70 *)
(** velocity of the vortex cylinder (gamma,R) on its axis *)
Definition cyl_axis_velocity (gamma Rt z : R) : R := gamma / 2 * (1 + z / sqrt (Rt * Rt + z * z)).

Definition ssR (gamma Rt lambda eta x y z : R) : R :=
  if Rltb 0 z then 0 else
  gamma / 2 * (1 + z / sqrt (z * z + Rt * Rt)) *
  Rpower (1 / cosh (sqrt 2 * (sqrt (x * x + y * y) / (sqrt (lambda * (eta + z / Rt * (z / Rt))) * Rt)))) (8/9).
Lemma ss_X gamma Rt lambda eta x y z : 0 < Rt -> 0 < lambda -> 0 < eta ->
  ss_u (N := XN) (Fin gamma) (Fin Rt) (Fin lambda) (Fin eta) (Fin x, Fin y, Fin z) = Fin (ssR gamma Rt lambda eta x y z).
Proof.
  intros HR Hl He. unfold ss_u, ssR. pose proof (sqpos (z/Rt)). pose proof (sqpos z). pose proof (sqpos x). pose proof (sqpos y).
  pose proof (sqpos_lt Rt ltac:(lra)).
  assert (0 < lambda * (eta + z / Rt * (z / Rt))) by (apply Rmult_lt_0_compat; lra).
  assert (0 < sqrt (lambda * (eta + z / Rt * (z / Rt))) * Rt) by (apply Rmult_lt_0_compat; [apply sqrt_lt_R0|]; lra).
  assert (0 < sqrt (z * z + Rt * Rt)) by (apply sqrt_lt_R0; lra).
  xn. rewrite !xdiv_fin by lra. xn. rewrite !xsqrt_fin by lra. xn. rewrite !xdiv_fin by lra. xn.
  set (e := sqrt 2 * _).
  assert (He' : 0 <= e).
  { unfold e. apply Rmult_le_pos; [apply sqrt_pos|]. apply Rmult_le_pos; [apply sqrt_pos|].
    left. apply Rinv_0_lt_compat. lra. }
  pose proof (cosh_ge_1 e He'). rewrite xdiv_fin by lra. xn.
  assert (0 < 1 / cosh e) by (apply Rdiv_lt_0_compat; lra).
  rewrite xpow_fin by lra. xn. rewrite Rpw_pos by lra.
  destruct (Rltb 0 z); reflexivity.
Qed.
Lemma axis_fac Rt z : 0 < Rt -> 0 < 1 + z / sqrt (z * z + Rt * Rt).
Proof.
  intros HR. pose proof (sqpos_lt Rt ltac:(lra)). pose proof (sqpos z).
  assert (Hs : 0 < sqrt (z * z + Rt * Rt)) by (apply sqrt_lt_R0; lra).
  assert (Rabs z < sqrt (z * z + Rt * Rt)).
  { rewrite <- sqrt_Rsqr_abs. apply sqrt_lt_1; unfold Rsqr; lra. }
  assert (- sqrt (z * z + Rt * Rt) < z) by (unfold Rabs in *; destruct (Rcase_abs z); lra).
  apply (Rmult_lt_reg_r (sqrt (z * z + Rt * Rt))); auto. rewrite Rmult_0_l, Rmult_plus_distr_r.
  unfold Rdiv. rewrite Rmult_assoc, Rinv_l by lra. lra.
Qed.
Lemma ss_shape gamma Rt lambda eta z : 0 < Rt -> 0 < lambda -> 0 < eta -> z <= 0 ->
  exists F : R -> R, (forall x y, ssR gamma Rt lambda eta x y z = cyl_axis_velocity gamma Rt z * F (x * x + y * y)) /\
    F 0 = 1 /\ (forall d, 0 <= d -> 0 < F d <= 1) /\ (forall d d', 0 <= d -> d < d' -> F d' < F d).
Proof.
  intros HR Hl He Hz. pose proof (sqpos (z/Rt)).
  assert (0 < lambda * (eta + z / Rt * (z / Rt))) by (apply Rmult_lt_0_compat; lra).
  set (r12 := sqrt (lambda * (eta + z / Rt * (z / Rt))) * Rt).
  assert (Hr : 0 < r12) by (apply Rmult_lt_0_compat; [apply sqrt_lt_R0|]; lra).
  assert (H2 : 0 < sqrt 2) by (apply sqrt_lt_R0; lra).
  set (e := fun d => sqrt 2 * (sqrt d / r12)).
  assert (He0 : forall d, 0 <= e d).
  { intros d. unfold e. apply Rmult_le_pos; [lra|]. apply Rmult_le_pos; [apply sqrt_pos|].
    left. apply Rinv_0_lt_compat. lra. }
  exists (fun d => Rpower (1 / cosh (e d)) (8/9)). repeat split.
  - intros x y. unfold ssR, cyl_axis_velocity. rewrite (proj2 (Rltb_false 0 z)) by lra.
    rewrite (Rplus_comm (z * z)). reflexivity.
  - replace (e 0) with 0 by (unfold e; rewrite sqrt_0; field; lra). rewrite cosh_0.
    replace (1/1) with 1 by field. unfold Rpower. rewrite ln_1, Rmult_0_r. apply exp_0.
  - unfold Rpower. apply exp_pos.
  - pose proof (cosh_ge_1 _ (He0 d)). assert (0 < 1 / cosh (e d) <= 1).
    { unfold Rdiv. rewrite Rmult_1_l. apply Rinv_le_1; auto. }
    assert (E1 : Rpower 1 (8/9) = 1) by (unfold Rpower; rewrite ln_1, Rmult_0_r; apply exp_0).
    apply Rle_trans with (Rpower 1 (8/9)); [apply Rle_Rpower_l; lra|lra].
  - intros d d' Hd Hd'.
    assert (e d < e d').
    { unfold e. apply Rmult_lt_compat_l; auto. unfold Rdiv. apply Rmult_lt_compat_r; [apply Rinv_0_lt_compat; lra|].
      apply sqrt_lt_1; lra. }
    pose proof (cosh_incr (e d) (e d') (He0 d) ltac:(lra)). pose proof (cosh_ge_1 _ (He0 d)).
    apply Rpower_base; [lra|]. split; [apply Rdiv_lt_0_compat; lra|].
    unfold Rdiv. rewrite !Rmult_1_l. apply Rinv_lt_contravar; auto. apply Rmult_lt_0_compat; lra.
Qed.
Theorem C70_self_similar :
  forall gamma Rt lambda eta, 0 < Rt -> 0 < lambda -> 0 < eta ->
  exists u : R -> R -> R -> R,
  (forall x y z, ss_u (N := XN) (Fin gamma) (Fin Rt) (Fin lambda) (Fin eta) (Fin x, Fin y, Fin z) = Fin (u x y z)) /\
  (* nothing downstream *)
  (forall x y z, 0 < z -> u x y z = 0) /\
  (* the cylinder's value on the axis *)
  (forall z, z <= 0 -> u 0 0 z = cyl_axis_velocity gamma Rt z) /\
  (* sign, bound, decay with the distance to the axis *)
  (forall x y z, z <= 0 -> (0 < gamma -> 0 < u x y z) /\ (gamma < 0 -> u x y z < 0)) /\
  (forall x y z, z <= 0 -> Rabs (u x y z) <= Rabs (cyl_axis_velocity gamma Rt z)) /\
  (forall x y x' y' z, z <= 0 -> gamma <> 0 -> x * x + y * y < x' * x' + y' * y' -> Rabs (u x' y' z) < Rabs (u x y z)).
Proof.
  intros gamma Rt lambda eta HR Hl He. exists (ssR gamma Rt lambda eta).
  assert (AX : forall z, cyl_axis_velocity gamma Rt z = gamma / 2 * (1 + z / sqrt (z * z + Rt * Rt))).
  { intros. unfold cyl_axis_velocity. now rewrite (Rplus_comm (Rt * Rt)). }
  split; [intros; apply ss_X; auto|].
  split; [intros x y z Hz; unfold ssR; rewrite (proj2 (Rltb_true 0 z)) by auto; reflexivity|].
  split; [|split; [|split]].
  - intros z Hz. destruct (ss_shape gamma Rt lambda eta z HR Hl He Hz) as (F & EF & F0 & FB & FD).
    rewrite EF. replace (0 * 0 + 0 * 0) with 0 by ring. rewrite F0. ring.
  - intros x y z Hz. destruct (ss_shape gamma Rt lambda eta z HR Hl He Hz) as (F & EF & F0 & FB & FD).
    rewrite EF, AX. pose proof (axis_fac Rt z HR) as P. pose proof (sqpos x). pose proof (sqpos y).
    destruct (FB (x*x+y*y) ltac:(lra)) as [P1 _].
    assert (Q : 0 < (1 + z / sqrt (z * z + Rt * Rt)) * F (x*x+y*y)) by (apply Rmult_lt_0_compat; auto).
    rewrite Rmult_assoc. split; intros; nra.
  - intros x y z Hz. destruct (ss_shape gamma Rt lambda eta z HR Hl He Hz) as (F & EF & F0 & FB & FD).
    rewrite EF, Rabs_mult. pose proof (sqpos x). pose proof (sqpos y).
    destruct (FB (x*x+y*y) ltac:(lra)) as [P1 P2]. rewrite (Rabs_right (F _)) by lra.
    pose proof (Rabs_pos (cyl_axis_velocity gamma Rt z)). nra.
  - intros x y x' y' z Hz Hg Hd. destruct (ss_shape gamma Rt lambda eta z HR Hl He Hz) as (F & EF & F0 & FB & FD).
    rewrite !EF, !Rabs_mult. pose proof (sqpos x). pose proof (sqpos y). pose proof (sqpos x'). pose proof (sqpos y').
    pose proof (FB (x*x+y*y) ltac:(lra)). pose proof (FB (x'*x'+y'*y') ltac:(lra)).
    rewrite !(Rabs_right (F _)) by lra. apply Rmult_lt_compat_l; [|apply FD; lra].
    apply Rabs_pos_lt. rewrite AX. pose proof (axis_fac Rt z HR).
    apply Rmult_integral_contrapositive_currified; lra.
Qed.
(** the default lambda_ and eta *)
Example C70_nonvacuous : ss_lambda (N := XN) = Fin (587/1000) /\ ss_eta (N := XN) = Fin (132/100) /\ 0 < 587/1000 /\ 0 < 132/100.
Proof. repeat split; lra. Qed.

(** ** C71 *)
Definition dist2 (p q : R * R) : R := (fst p - fst q) * (fst p - fst q) + (snd p - snd q) * (snd p - snd q).
Definition vpR (G k : R) (cp pv : R * R) : R * R :=
  (G * - (snd cp - snd pv) / dist2 cp pv / (2 * PI) * k, G * (fst cp - fst pv) / dist2 cp pv / (2 * PI) * k).
Definition fin2 (p : R * R) : XN * XN := (Fin (fst p) : XN, Fin (snd p) : XN).
Lemma dist2_pos p q : p <> q -> 0 < dist2 p q.
Proof.
  destruct p as [a b], q as [c d]. intros H. unfold dist2. cbn [fst snd].
  destruct (Req_dec a c) as [->|Hac].
  - pose proof (sqpos_lt (b - d)). destruct (Req_dec b d) as [->|]; [congruence|]. pose proof (sqpos (c-c)). lra.
  - pose proof (sqpos_lt (a - c) ltac:(lra)). pose proof (sqpos (b - d)). lra.
Qed.
Lemma vp_X G rc cp pv : cp <> pv ->
  vp_u (N := XN) (Fin G) (Fin rc) false (fin2 cp) (fin2 pv) = fin2 (vpR G 1 cp pv).
Proof.
  intros H. pose proof (dist2_pos _ _ H) as D. pose proof PI_RGT_0. unfold vp_u, vpR, fin2, dist2 in *. cbn [fst snd].
  xn. rewrite !xdiv_fin by lra. f_equal; f_equal; ring.
Qed.
Lemma vp_visc_X G rc cp pv : cp <> pv -> rc <> 0 ->
  vp_u (N := XN) (Fin G) (Fin rc) true (fin2 cp) (fin2 pv) = fin2 (vpR G (1 - exp (- dist2 cp pv / (rc * rc))) cp pv).
Proof.
  intros H Hr. pose proof (dist2_pos _ _ H) as D. pose proof PI_RGT_0. pose proof (sqpos_lt rc Hr).
  unfold vp_u, vpR, fin2, dist2 in *. cbn [fst snd].
  xn. rewrite !xdiv_fin by lra. reflexivity.
Qed.
Theorem C71_vortex_point :
  forall G rc (cp pv : R * R), cp <> pv ->
  exists u, vp_u (N := XN) (Fin G) (Fin rc) false (fin2 cp) (fin2 pv) = fin2 u /\
    (* perpendicular to the separation, anticlockwise for G > 0 *)
    (fst u * (fst cp - fst pv) + snd u * (snd cp - snd pv) = 0) /\
    (0 < G -> 0 < (fst cp - fst pv) * snd u - (snd cp - snd pv) * fst u) /\
    (* magnitude *)
    sqrt (fst u * fst u + snd u * snd u) = Rabs G / (2 * PI * sqrt (dist2 cp pv)) /\
    (* action and reaction *)
    vp_u (N := XN) (Fin G) (Fin rc) false (fin2 pv) (fin2 cp) = fin2 (- fst u, - snd u) /\
    (* Lamb-Oseen core: a factor in [0,1) *)
    (rc <> 0 -> exists k, 0 < k < 1 /\
       vp_u (N := XN) (Fin G) (Fin rc) true (fin2 cp) (fin2 pv) = fin2 (k * fst u, k * snd u)).
Proof.
  intros G rc cp pv H. pose proof (dist2_pos _ _ H) as D. pose proof PI_RGT_0 as HP.
  exists (vpR G 1 cp pv). split; [apply vp_X; auto|].
  assert (N1 : forall c : R, c * c = dist2 cp pv -> 0 < c -> sqrt (dist2 cp pv) = c).
  { intros c <- Hc. apply sqrt_square. lra. }
  split; [|split; [|split; [|split]]].
  - unfold vpR. cbn [fst snd]. field. lra.
  - intros HG. unfold vpR. cbn [fst snd].
    replace ((fst cp - fst pv) * (G * (fst cp - fst pv) / dist2 cp pv / (2 * PI) * 1) -
             (snd cp - snd pv) * (G * - (snd cp - snd pv) / dist2 cp pv / (2 * PI) * 1))
      with (G * (dist2 cp pv / dist2 cp pv) / (2 * PI)) by (unfold dist2 at 1; field; lra).
    unfold Rdiv at 2. rewrite Rinv_r by lra. rewrite Rmult_1_r. apply Rdiv_lt_0_compat; lra.
  - set (s := sqrt (dist2 cp pv)). assert (Hs : 0 < s) by (apply sqrt_lt_R0; auto).
    assert (Es : s * s = dist2 cp pv) by (apply sqrt_sqrt; lra).
    replace (fst (vpR G 1 cp pv) * fst (vpR G 1 cp pv) + snd (vpR G 1 cp pv) * snd (vpR G 1 cp pv))
      with (Rsqr (G / (2 * PI * s))).
    + rewrite sqrt_Rsqr_abs. unfold Rdiv. rewrite Rabs_mult. f_equal. apply Rabs_right.
      assert (0 < / (2 * PI * s)) by (apply Rinv_0_lt_compat; apply Rmult_lt_0_compat; lra). lra.
    + unfold vpR, Rsqr. cbn [fst snd].
      replace (G * - (snd cp - snd pv) / dist2 cp pv / (2 * PI) * 1 * (G * - (snd cp - snd pv) / dist2 cp pv / (2 * PI) * 1) +
         G * (fst cp - fst pv) / dist2 cp pv / (2 * PI) * 1 * (G * (fst cp - fst pv) / dist2 cp pv / (2 * PI) * 1))
        with (G * G * dist2 cp pv / (dist2 cp pv * dist2 cp pv) / (4 * PI * PI)) by (unfold dist2 at 1; field; lra).
      rewrite <- Es. field. lra.
  - rewrite vp_X by congruence. unfold vpR. cbn [fst snd].
    replace (dist2 pv cp) with (dist2 cp pv) by (unfold dist2; ring).
    unfold fin2. cbn [fst snd]. f_equal; f_equal; field; lra.
  - intros Hr. exists (1 - exp (- dist2 cp pv / (rc * rc))). pose proof (sqpos_lt rc Hr). split.
    + assert (- dist2 cp pv / (rc * rc) < 0).
      { unfold Rdiv. rewrite Ropp_mult_distr_l_reverse. pose proof (Rmult_lt_0_compat _ _ D (Rinv_0_lt_compat _ H0)). lra. }
      pose proof (exp_pos (- dist2 cp pv / (rc * rc))). pose proof (exp_increasing _ _ H1) as H3. rewrite exp_0 in H3. lra.
    + rewrite vp_visc_X by auto. unfold vpR, fin2. cbn [fst snd]. f_equal; f_equal; ring.
Qed.
Example C71_nonvacuous : (1, 2) <> (0, 0).
Proof. intros E; injection E; lra. Qed.
(** on the vortex itself the kernel is not finite *)
Theorem C71_self_is_nan : forall G rc cp, vp_u (N := XN) (Fin G) (Fin rc) false (fin2 cp) (fin2 cp) = (NaN : XN, NaN : XN).
Proof.
  intros G rc [x y]. unfold vp_u, fin2. cbn [fst snd]. xn.
  replace (x - x) with 0 by ring. replace (y - y) with 0 by ring.
  replace (0*0+0*0) with 0 by ring. replace (- 0) with 0 by ring. rewrite Rmult_0_r.
  cbn [xdiv]. rewrite (proj2 (Reqb_true 0 0)) by reflexivity.
  unfold xinf_mul. rewrite (proj2 (Rltb_false 0 0)) by lra. reflexivity.
Qed.

(** ** C72 *)
(** a point vortex: position, circulation, smoothing length *)
Record rvort := { rpos : R * R; rG : R; rs : R }.
Definition lift_v (v : rvort) : vortex XN :=
  {| vpos := [Fin (fst (rpos v)) : XN; Fin (snd (rpos v)) : XN]; vG := Fin (rG v); vs := Fin (rs v) |}.
Definition row (p : R * R) : list XN := [Fin (fst p) : XN; Fin (snd p) : XN].
Lemma row_eq a b c d : a = c -> b = d -> [Fin a : XN; Fin b : XN] = [Fin c : XN; Fin d : XN].
Proof. now intros -> ->. Qed.
Definition add2 (a b : R * R) : R * R := (fst a + fst b, snd a + snd b).
Definition scal2 (k : R) (a : R * R) : R * R := (k * fst a, k * snd a).
Definition sum2 (l : list (R * R)) : R * R := fold_right add2 (0, 0) l.
(** velocity of one vortex, 0 within sqrt(1e-15) of it; [f] is the core function of (r/s)^2 *)
Definition induced (f : R -> R) (cp : R * R) (v : rvort) : R * R :=
  if Rlt_dec (dist2 cp (rpos v)) (1/1000000000000000) then (0, 0)
  else scal2 (f (dist2 cp (rpos v) / (rs v * rs v)))
         (rG v / (2 * PI) * - (snd cp - snd (rpos v)) / dist2 cp (rpos v),
          rG v / (2 * PI) * (fst cp - fst (rpos v)) / dist2 cp (rpos v)).

Lemma add2_comm a b : add2 a b = add2 b a.
Proof. unfold add2. f_equal; ring. Qed.
Lemma add2_0_l a : add2 (0,0) a = a.
Proof. destruct a; unfold add2; cbn; f_equal; ring. Qed.
Lemma add2_assoc a b c : add2 (add2 a b) c = add2 a (add2 b c).
Proof. unfold add2; cbn; f_equal; ring. Qed.

(** the core function of an accepted smoothing kernel *)
Definition core_of (ker : option ((XN -> XN) * (XN -> XN))) (ko : Z) (f : R -> R) : Prop :=
  match ker with
  | None => forall x, f x = 1
  | Some (fK, fE) => if (ko =? 0)%Z then forall x, f x = 1
                     else exists q e, (forall x, fK (Fin x) = Fin (q x)) /\ (forall x, fE (Fin x) = Fin (e x)) /\ forall x, f x = 1 - q x * e x
  end.
Lemma vps_one_X ker ko f cp v : core_of ker ko f -> (ker <> None -> rs v <> 0) ->
  exists w, vps_one (N := XN) ker ko 2 (row cp) (lift_v v) = Ok w /\
    (match w with None => (0, 0) | Some _ => induced f cp v end = induced f cp v) /\
    (match w with None => True | Some w => w = row (induced f cp v) end).
Proof.
  intros HK Hs. pose proof PI_RGT_0 as HP.
  unfold vps_one, row, lift_v, brow_sub. cbn [vpos vG vs len Nat.eqb map2 bind].
  change (nlt XN _ (nQ XN 1 1000000000000000)) with
    (Rltb ((fst cp - fst (rpos v)) * (fst cp - fst (rpos v)) + (snd cp - snd (rpos v)) * (snd cp - snd (rpos v))) (1/1000000000000000)).
  fold (dist2 cp (rpos v)). unfold Rltb, induced. destruct (Rlt_dec _ _) as [H|H].
  { exists None. auto. }
  assert (D : dist2 cp (rpos v) <> 0) by lra.
  destruct ker as [[fK fE]|]; cbn [core_of] in HK.
  - specialize (Hs ltac:(discriminate)). pose proof (sqpos_lt _ Hs). destruct (ko =? 0)%Z.
    + eexists. split; [reflexivity|]. split; [reflexivity|]. rewrite HK. cbn [map]. unfold dist2 in *. xfin lra.
      unfold scal2, row. cbn [fst snd]. apply row_eq; ring.
    + destruct HK as (q & e & EQ & EE & Ef). eexists. split; [reflexivity|]. split; [reflexivity|]. rewrite Ef. cbn [map].
      unfold dist2 in *. xfin lra. rewrite EQ, EE. xfin lra.
      unfold scal2, row. cbn [fst snd]. apply row_eq; field; lra.
  - eexists. split; [reflexivity|]. split; [reflexivity|]. rewrite HK. cbn [map]. unfold dist2 in *. xfin lra.
    unfold scal2, row. cbn [fst snd]. apply row_eq; ring.
Qed.
Lemma vps_row_X ker ko f cp vl : core_of ker ko f -> (ker <> None -> forall v, In v vl -> rs v <> 0) ->
  forall acc, vps_row (N := XN) ker ko 2 (row cp) (map lift_v vl) (row acc) =
    Ok (row (add2 acc (sum2 (map (induced f cp) vl)))).
Proof.
  intros HK. induction vl as [|v vl IH]; intros Hs acc.
  - cbn. f_equal. unfold row, add2. cbn. apply row_eq; ring.
  - cbn [map vps_row].
    destruct (vps_one_X ker ko f cp v HK) as (w & E & E1 & E2); [intros K; apply (Hs K); now left|].
    rewrite E. cbn [bind]. change (sum2 (induced f cp v :: map (induced f cp) vl)) with (add2 (induced f cp v) (sum2 (map (induced f cp) vl))).
    rewrite <- add2_assoc. rewrite <- (IH (fun K u Hu => Hs K u (or_intror Hu))). f_equal.
    destruct w as [w|].
    + subst w. reflexivity.
    + rewrite <- E1. rewrite add2_comm, add2_0_l. reflexivity.
Qed.
(** the accepted combinations of model and order *)
Definition accepted (sm ko : Z) : Prop :=
  (sm = 0 \/ (sm = 1 /\ (ko = 2 \/ ko = 4 \/ ko = 6 \/ ko = 8)) \/
   (sm = 2 /\ (ko = 2 \/ ko = 4 \/ ko = 6 \/ ko = 8 \/ ko = 10)))%Z.
Lemma kernel_core sm ko : accepted sm ko ->
  exists ker f, vps_kernel (N := XN) sm ko = Ok ker /\ core_of ker ko f /\ (ker = None <-> sm = 0%Z) /\
    (sm = 0%Z -> forall x, f x = 1) /\ (sm <> 0%Z -> f 0 = 0).
Proof.
  assert (E0 : exp (- 0) = 1) by (rewrite Ropp_0; apply exp_0).
  assert (E1 : exp (- 0 / 2) = 1) by (replace (-0/2) with 0 by field; apply exp_0).
  intros [->|[(-> & H)|(-> & H)]].
  - exists None, (fun _ => 1). repeat split; auto. lia.
  - destruct H as [->|[->|[->| ->]]]; cbn [vps_kernel Z.eqb Pos.eqb].
    + eexists. exists (fun x => 1 - 1 * exp (- x)). split; [reflexivity|]. split; [exists (fun _ => 1), (fun x => exp (- x)); repeat split; reflexivity|]. split; [split; discriminate|]. split; [discriminate|]. intros _. rewrite E0. ring.
    + eexists. exists (fun x => 1 - (1 - x) * exp (- x)). split; [reflexivity|]. split; [exists (fun x => 1 - x), (fun x => exp (- x)); repeat split; reflexivity|]. split; [split; discriminate|]. split; [discriminate|]. intros _. rewrite E0. ring.
    + eexists. exists (fun x => 1 - (1 - 2 * x + x * x / 2) * exp (- x)). split; [reflexivity|]. split; [exists (fun x => 1 - 2 * x + x * x / 2), (fun x => exp (- x)); repeat split; intros; xn; rewrite ?xdiv_fin by lra; reflexivity|]. split; [split; discriminate|]. split; [discriminate|]. intros _. rewrite E0. field.
    + eexists. exists (fun x => 1 - (1 - 3 * x + 3 * (x * x) / 2 - x * x * x / 6) * exp (- x)). split; [reflexivity|]. split; [exists (fun x => 1 - 3 * x + 3 * (x * x) / 2 - x * x * x / 6), (fun x => exp (- x)); repeat split; intros; xn; rewrite ?xdiv_fin by lra; reflexivity|]. split; [split; discriminate|]. split; [discriminate|]. intros _. rewrite E0. field.
  - destruct H as [->|[->|[->|[->| ->]]]]; cbn [vps_kernel Z.eqb Pos.eqb].
    + eexists. exists (fun x => 1 - 1 * exp (- x)). split; [reflexivity|]. split; [exists (fun _ => 1), (fun x => exp (- x)); repeat split; reflexivity|]. split; [split; discriminate|]. split; [discriminate|]. intros _. rewrite E0. ring.
    + eexists. exists (fun x => 1 - (1 - 1/2 * x) * exp (- x / 2)). split; [reflexivity|]. split; [exists (fun x => 1 - 1/2 * x), (fun x => exp (- x / 2)); repeat split; intros; xn; rewrite ?xdiv_fin by lra; reflexivity|]. split; [split; discriminate|]. split; [discriminate|]. intros _. rewrite E1. ring.
    + eexists. exists (fun x => 1 - (1 - x + 1/8 * (x * x)) * exp (- x / 2)). split; [reflexivity|]. split; [exists (fun x => 1 - x + 1/8 * (x * x)), (fun x => exp (- x / 2)); repeat split; intros; xn; rewrite ?xdiv_fin by lra; reflexivity|]. split; [split; discriminate|]. split; [discriminate|]. intros _. rewrite E1. ring.
    + eexists. exists (fun x => 1 - (1 - 3/2 * x + 3/8 * (x * x) - 1/48 * (x * x * x)) * exp (- x / 2)). split; [reflexivity|]. split; [exists (fun x => 1 - 3/2 * x + 3/8 * (x * x) - 1/48 * (x * x * x)), (fun x => exp (- x / 2)); repeat split; intros; xn; rewrite ?xdiv_fin by lra; reflexivity|]. split; [split; discriminate|]. split; [discriminate|]. intros _. rewrite E1. ring.
    + eexists. exists (fun x => 1 - (1 - 2 * x + 3/4 * (x * x) - 1/12 * (x * x * x) + 1/384 * (x * x * (x * x))) * exp (- x / 2)). split; [reflexivity|]. split; [exists (fun x => 1 - 2 * x + 3/4 * (x * x) - 1/12 * (x * x * x) + 1/384 * (x * x * (x * x))), (fun x => exp (- x / 2)); repeat split; intros; xn; rewrite ?xdiv_fin by lra; reflexivity|]. split; [split; discriminate|]. split; [discriminate|]. intros _. rewrite E1. ring.
Qed.
(** 2-d superposition, for every accepted kernel: one core function per kernel, equal to 1
    without smoothing and vanishing on the vortex with smoothing *)
Theorem C72_superposition :
  forall sm ko, accepted sm ko ->
  exists f : R -> R, (sm = 0%Z -> forall x, f x = 1) /\ (sm <> 0%Z -> f 0 = 0) /\
  forall (cps : list (R * R)) (vl : list rvort), (sm <> 0%Z -> forall v, In v vl -> rs v <> 0) ->
    vps_u (N := XN) sm ko 2 2 (map row cps) (map lift_v vl) =
    Ok (map (fun cp => row (sum2 (map (induced f cp) vl))) cps).
Proof.
  intros sm ko HA. destruct (kernel_core sm ko HA) as (ker & f & EK & HC & HN & H1 & H0).
  exists f. split; auto. split; auto. intros cps vl Hs. unfold vps_u, vps_dim_ok. cbn [Nat.eqb negb]. rewrite EK. cbn [bind].
  assert (Hs' : ker <> None -> forall v, In v vl -> rs v <> 0).
  { intros K. apply Hs. intros E. apply K, HN, E. }
  induction cps as [|cp cps IH]; [reflexivity|]. cbn [map mapM].
  change (repeat (nZ XN 0) 2) with (row (0, 0)).
  rewrite (vps_row_X ker ko f cp vl HC Hs'). cbn [bind]. change (repeat (nZ XN 0) 2) with (row (0, 0)) in IH. rewrite IH. cbn [bind].
  rewrite add2_0_l. reflexivity.
Qed.
(** without smoothing the kernel is that of [vp_u] *)
Theorem C72_same_as_vp_u : forall cp v rc, ~ dist2 cp (rpos v) < 1/1000000000000000 ->
  vp_u (N := XN) (Fin (rG v)) (Fin rc) false (fin2 cp) (fin2 (rpos v)) = fin2 (induced (fun _ => 1) cp v).
Proof.
  intros cp v rc H. pose proof PI_RGT_0. rewrite vp_X.
  - unfold induced. destruct (Rlt_dec _ _); [contradiction|]. unfold vpR, scal2, fin2. cbn [fst snd].
    f_equal; f_equal; field; lra.
  - intros ->. apply H. unfold dist2. rewrite !Rminus_eq_0, Rmult_0_l. lra.
Qed.
(** mutual induction: the circulation-weighted velocities of the vortices sum to zero *)
Lemma sum2_app l m : sum2 (l ++ m) = add2 (sum2 l) (sum2 m).
Proof. induction l as [|a l IH]; cbn; [now rewrite add2_0_l|]. unfold sum2 in IH. rewrite IH. now rewrite add2_assoc. Qed.
Lemma sum2_scal k l : scal2 k (sum2 l) = sum2 (map (scal2 k) l).
Proof. induction l as [|a l IH]; cbn; [unfold scal2; cbn; f_equal; ring|]. unfold sum2 in IH. rewrite <- IH. unfold scal2, add2; cbn; f_equal; ring. Qed.
Lemma sum2_add {A} (f g : A -> R * R) l : sum2 (map (fun x => add2 (f x) (g x)) l) = add2 (sum2 (map f l)) (sum2 (map g l)).
Proof. induction l as [|a l IH]; cbn; [unfold add2; cbn; f_equal; ring|]. unfold sum2 in IH. rewrite IH. unfold add2; cbn; f_equal; ring. Qed.
Definition pairt (v w : rvort) : R * R := scal2 (rG v) (induced (fun _ => 1) (rpos v) w).
Lemma pairt_anti v w : add2 (pairt v w) (pairt w v) = (0, 0).
Proof.
  unfold pairt, induced. replace (dist2 (rpos w) (rpos v)) with (dist2 (rpos v) (rpos w)) by (unfold dist2; ring).
  pose proof PI_RGT_0. destruct (Rlt_dec _ _); unfold scal2, add2; cbn [fst snd]; f_equal; try ring; field; lra.
Qed.
Theorem C72_no_net_impulse : forall vl : list rvort,
  sum2 (map (fun v => scal2 (rG v) (sum2 (map (induced (fun _ => 1) (rpos v)) vl))) vl) = (0, 0).
Proof.
  assert (K : forall l m, add2 (sum2 (map (fun v => sum2 (map (pairt v) m)) l)) (sum2 (map (fun v => sum2 (map (pairt v) l)) m)) = (0, 0)).
  { induction l as [|a l IH]; intros m.
    - cbn. rewrite add2_0_l. induction m as [|b m IH]; [reflexivity|]. cbn. unfold sum2 in IH. rewrite IH. unfold add2; cbn; f_equal; ring.
    - cbn [map sum2 fold_right]. fold (sum2 (map (fun v => sum2 (map (pairt v) m)) l)).
      assert (E : sum2 (map (fun v => add2 (pairt v a) (fold_right add2 (0,0) (map (pairt v) l))) m) =
                  add2 (sum2 (map (fun v => pairt v a) m)) (sum2 (map (fun v => sum2 (map (pairt v) l)) m))).
      { apply (sum2_add (fun v => pairt v a) (fun v => sum2 (map (pairt v) l))). }
      change (fold_right add2 (0,0)) with sum2 in *. rewrite E. specialize (IH m).
      assert (E2 : add2 (sum2 (map (pairt a) m)) (sum2 (map (fun v => pairt v a) m)) = (0,0)).
      { clear. induction m as [|b m IH]; [unfold add2; cbn; f_equal; ring|].
        cbn [map sum2 fold_right]. change (fold_right add2 (0,0)) with sum2.
        pose proof (pairt_anti a b) as P. set (s := sum2 (map (pairt a) m)) in *. set (t := sum2 (map (fun v => pairt v a) m)) in *.
        unfold add2 in *. cbn in *. injection IH; injection P; intros. f_equal; lra. }
      set (A := sum2 (map (pairt a) m)) in *. set (B := sum2 (map (fun v => pairt v a) m)) in *.
      set (C := sum2 (map (fun v => sum2 (map (pairt v) m)) l)) in *. set (D := sum2 (map (fun v => sum2 (map (pairt v) l)) m)) in *.
      unfold add2 in *. cbn in *. injection IH; injection E2; intros. f_equal; lra. }
  intros vl. specialize (K vl vl).
  assert (E : sum2 (map (fun v => scal2 (rG v) (sum2 (map (induced (fun _ => 1) (rpos v)) vl))) vl) = sum2 (map (fun v => sum2 (map (pairt v) vl)) vl)).
  { f_equal. apply map_ext. intros v. rewrite sum2_scal, map_map. reflexivity. }
  rewrite E. set (s := sum2 _) in *. destruct s as [a b]. unfold add2 in K. cbn in K. injection K; intros. f_equal; lra.
Qed.
Example C72_nonvacuous : accepted 2 10 /\ (forall v, In v [{| rpos := (1,2); rG := 3; rs := 1 |}] -> rs v <> 0).
Proof. split; [unfold accepted; lia|]. intros v [<-|[]]. cbn. lra. Qed.

(** ** C73 *)
(** documented: matrices of 2 or 3 columns, same number of columns, any of the models with any of the orders *)
Definition C93_full : Prop :=
  (forall sm ko ndimCP ndim cps vl, ndimCP <> ndim -> exists m, vps_u (N := XN) sm ko ndimCP ndim cps vl = Err (EException m)).
(** one-column control points are silently broadcast against two-column vortices *)
Theorem C93_dimension_refuted : ~ C93_full /\
  vps_u (N := XN) 0 2 1 2 [[Fin 1 : XN]] [lift_v {| rpos := (0, 0); rG := 2 * PI; rs := 1 |}] = Ok [row (- (1/2), 1/2)].
Proof.
  assert (E : vps_u (N := XN) 0 2 1 2 [[Fin 1 : XN]] [lift_v {| rpos := (0, 0); rG := 2 * PI; rs := 1 |}] = Ok [row (- (1/2), 1/2)]).
  { unfold vps_u, vps_dim_ok. cbn [Nat.eqb negb vps_kernel Z.eqb bind mapM vps_row].
    unfold vps_one, lift_v, brow_sub. cbn [vpos vG rpos rG fst snd len Nat.eqb map bind].
    change (nlt XN _ (nQ XN 1 1000000000000000)) with (Rltb ((1 - 0) * (1 - 0) + (1 - 0) * (1 - 0)) (1/1000000000000000)).
    rewrite (proj2 (Rltb_false _ _)) by lra. cbn [len Nat.eqb map bind repeat map2]. pose proof PI_RGT_0. xfin lra. unfold row. cbn [fst snd]. do 2 f_equal.
    apply row_eq; field; lra. }
  split; auto. intros H.
  destruct (H 0%Z 2%Z 1%nat 2%nat [[Fin 1 : XN]] [lift_v {| rpos := (0, 0); rG := 2 * PI; rs := 1 |}] ltac:(discriminate)) as (m & K).
  rewrite E in K. discriminate.
Qed.
(** what holds: exactly the accepted combinations set up a kernel, the others raise, for every input *)
Theorem C73_models : forall sm ko ndimCP ndim cps vl,
  (~ accepted sm ko -> exists m, vps_u (N := XN) sm ko ndimCP ndim cps vl = Err (EException m)) /\
  (accepted sm ko -> exists ker, vps_kernel (N := XN) sm ko = Ok ker).
Proof.
  intros sm ko ndimCP ndim cps vl. split.
  - intros H. unfold vps_u, vps_dim_ok. rewrite Nat.eqb_refl. cbn [negb].
    assert (exists m, vps_kernel (N := XN) sm ko = Err (EException m)) as (m & E); [|rewrite E; cbn [bind]; eauto].
    unfold vps_kernel, accepted in *.
    destruct (sm =? 0)%Z eqn:S0; [exfalso; lia|]. destruct (sm =? 1)%Z eqn:S1.
    + do 4 (match goal with |- context [(ko =? ?c)%Z] => destruct (ko =? c)%Z eqn:?; [exfalso; lia|] end). eauto.
    + destruct (sm =? 2)%Z eqn:S2; eauto.
      do 5 (match goal with |- context [(ko =? ?c)%Z] => destruct (ko =? c)%Z eqn:?; [exfalso; lia|] end). eauto.
  - intros H. destruct (kernel_core sm ko H) as (ker & f & E & _). eauto.
Qed.
