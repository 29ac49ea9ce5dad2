(** * Wind and yaw angles, rotor disk (exact arithmetic) *)
From Coq Require Import ZArith List Bool Arith Lia String Reals Lra Psatz.
From Verif Require Import Num NumR NumX Spec M_Cylinder M_Turbine L_Geom.
Import ListNotations.
Local Open Scope R_scope.

Ltac fixR := match goal with |- @eq _ ?a ?b => change (@eq R a b) end.
Lemma frame_perp_basis h v : frame h v ->
  unit3 (vprod v h) /\ perp h (vprod v h) /\ perp v (vprod v h) /\ vprod h (vprod v h) = v.
Proof.
  intros (H1 & H2 & H3). unfold unit3, perp in *. repeat split.
  - transitivity (inner v v * inner h h - inner h v * inner h v); [clear; pt3; unf; ring|].
    rewrite H1, H2, H3; ring.
  - clear; pt3; unf; ring.
  - clear; pt3; unf; ring.
  - transitivity (sub3 (scal3 (inner h h) v) (scal3 (inner h v) h)); [clear; pt3; unf; t3; ring|].
    rewrite H1, H3. apply eq3; unf; ring.
Qed.

Lemma rotate_frame h v th : frame h v ->
  rotate v th h = add3 (scal3 (cos th) h) (scal3 (sin th) (vprod v h)).
Proof. intros (H1 & H2 & H3). apply rotate_perp. unfold perp in *. rewrite inner_sym; auto. Qed.

Lemma rotate_perp_axis h v th : frame h v -> inner (rotate v th h) v = 0.
Proof.
  intros H. rewrite <- (rotate_axis v th) at 2 by apply H.
  rewrite rotate_inner by apply H. apply H.
Qed.

Lemma wind_horz h v s th w : frame h v ->
  vsub (N := RN) (wind h v s th w)
       (vscale (N := RN) (dot (N := RN) (wind h v s th w) v) v) = scal3 s (rotate v th h).
Proof.
  intros H. rewrite vsub_sub3, vscale_scal3, dot_inner. unfold wind.
  rewrite inner_add_l, !inner_scal_l, rotate_perp_axis by auto.
  replace (inner v v) with 1 by (symmetry; apply H).
  apply eq3; unf; ring.
Qed.

(** the horizontal reference of an untilted shaft is the shaft *)
Lemma horz_of_frame sh v : frame sh v -> horz_of (N := RN) sh v = sh.
Proof.
  intros H. unfold horz_of. rewrite dot_inner.
  replace (inner sh v) with 0 by (symmetry; apply H).
  assert (E : vsubs (N := RN) sh 0 = sh).
  { clear. pt3. cbn. t3; ring. }
  rewrite E, norm_length3, vdivs_scal3, length3_unit by apply H.
  apply eq3; unf; field.
Qed.

Lemma sin_sgn th : - PI < th <= PI ->
  (if Reqb (Rsgn (sin th)) 0 then acos (cos th) else Rsgn (sin th) * acos (cos th)) = th.
Proof.
  intros [Hl Hu]. unfold Rsgn.
  destruct (Rlt_dec 0 (sin th)) as [Hp|Hp].
  - destruct (Reqb_spec 1 0); [lra|].
    assert (0 < th).
    { destruct (Rle_or_lt th 0) as [K|K]; auto. destruct (Req_dec th 0) as [->|]; [rewrite sin_0 in Hp; lra|].
      assert (0 <= sin (- th)) by (apply sin_ge_0; lra). rewrite sin_neg in *. lra. }
    rewrite acos_cos by lra. ring.
  - destruct (Rlt_dec (sin th) 0) as [Hn|Hn].
    + destruct (Reqb_spec (-1) 0); [lra|].
      assert (th < 0).
      { destruct (Rlt_or_le th 0) as [K|K]; auto.
        assert (0 <= sin th) by (apply sin_ge_0; lra). lra. }
      rewrite <- cos_neg, acos_cos by lra. ring.
    + destruct (Reqb_spec 0 0); [|lra].
      assert (0 <= th).
      { destruct (Rlt_or_le th 0) as [K|K]; auto.
        assert (0 < sin (- th)) by (apply sin_gt_0; lra). rewrite sin_neg in *. lra. }
      rewrite acos_cos by lra. reflexivity.
Qed.

Lemma Rsgn_mult s x : 0 < s -> Rsgn (s * x) = Rsgn x.
Proof.
  intros Hs. unfold Rsgn.
  destruct (Rlt_dec 0 x), (Rlt_dec 0 (s * x)); auto; try nra.
  destruct (Rlt_dec x 0), (Rlt_dec (s * x) 0); auto; nra.
Qed.

Lemma yaw_wind_spec (t : turbine RN) (h v : R3) (s th w : R) :
  t_vert t = v -> t_horz t = h -> frame h v -> 0 < s -> - PI < th <= PI ->
  t_U0 t = wind h v s th w -> yaw_wind t = th.
Proof.
  intros Hv Hh HF Hs Hth HU. unfold yaw_wind. rewrite Hv, Hh, HU.
  rewrite wind_horz by auto.
  assert (Hn : norm (N := RN) (scal3 s (rotate v th h)) = s).
  { rewrite norm_length3, length3_scal, length3_unit, Rabs_pos_eq; try lra.
    unfold unit3. rewrite rotate_inner by apply HF. apply HF. }
  rewrite Hn.
  assert (He : vdivs (N := RN) (scal3 s (rotate v th h)) s = rotate v th h).
  { rewrite vdivs_scal3. apply eq3; unfold scal3, px, py, pz; cbn [fst snd]; field; lra. }
  rewrite He. rewrite !dot_inner, cross_vprod.
  assert (Hd : inner (vprod h (wind h v s th w)) v = s * sin th).
  { unfold wind. rewrite rotate_frame by auto.
    destruct (frame_perp_basis h v HF) as (_ & _ & _ & B4).
    fixR. transitivity (s * sin th * inner (vprod h (vprod v h)) v); [clear; pt3; unf; ring|].
    rewrite B4. replace (inner v v) with 1 by (symmetry; apply HF). ring. }
  rewrite Hd. cbn [nsign nacos neqb nmul nZ RN]. rewrite Rsgn_mult by auto.
  assert (Hc : inner (rotate v th h) h = cos th).
  { rewrite rotate_frame by auto. rewrite inner_add_l, !inner_scal_l.
    destruct (frame_perp_basis h v HF) as (_ & B2 & _ & _). unfold perp in B2.
    rewrite (inner_sym (vprod v h) h), B2. replace (inner h h) with 1 by (symmetry; apply HF). ring. }
  rewrite Hc. apply sin_sgn; auto.
Qed.

(** yaw_error, shaft at angle th + d of the horizontal reference, wind at th *)
Lemma yaw_error_spec (t : turbine RN) (h v : R3) (s th d : R) :
  t_vert t = v -> frame h v -> 0 < s -> - PI < d < PI ->
  t_shaft t = rotate v (th + d) h -> t_U0 t = wind h v s th 0 -> yaw_error t = d.
Proof.
  intros Hv HF Hs Hd Hsh HU. unfold yaw_error. rewrite Hv, Hsh, HU.
  assert (EW : wind h v s th 0 = scal3 s (rotate v th h)).
  { unfold wind. apply eq3; unf; ring. }
  assert (U1 : unit3 (rotate v th h)).
  { unfold unit3. rewrite rotate_inner by apply HF. apply HF. }
  assert (He : vdivs (N := RN) (wind h v s th 0) (norm (N := RN) (wind h v s th 0)) = rotate v th h).
  { rewrite norm_length3, EW, length3_scal, length3_unit, Rabs_pos_eq, vdivs_scal3 by (auto; lra).
    apply eq3; unfold scal3, px, py, pz; cbn [fst snd]; field; lra. }
  rewrite He. rewrite !dot_inner, cross_vprod.
  rewrite (Rplus_comm th d), <- rotate_plus by apply HF.
  set (e := rotate v th h) in *.
  assert (HF' : frame e v).
  { split; [|split]; auto. apply HF. apply rotate_perp_axis; auto. }
  rewrite rotate_frame by auto.
  destruct (frame_perp_basis e v HF') as (_ & B2 & _ & B4).
  assert (E1 : inner (vprod e (add3 (scal3 (cos d) e) (scal3 (sin d) (vprod v e)))) v = sin d).
  { transitivity (sin d * inner (vprod e (vprod v e)) v); [clear; clearbody e; pt3; unf; ring|].
    rewrite B4. replace (inner v v) with 1 by (symmetry; apply HF). ring. }
  assert (E2 : inner e (add3 (scal3 (cos d) e) (scal3 (sin d) (vprod v e))) = cos d).
  { rewrite inner_sym, inner_add_l, !inner_scal_l. unfold perp in B2.
    rewrite (inner_sym (vprod v e) e), B2. unfold unit3 in U1. rewrite U1. ring. }
  rewrite E1, E2. cbn [nsign nacos nmul RN].
  pose proof (sin_sgn d ltac:(lra)) as HS.
  unfold Rsgn in *. destruct (Rlt_dec 0 (sin d)).
  - destruct (Reqb_spec 1 0); [lra|]. auto.
  - destruct (Rlt_dec (sin d) 0).
    + destruct (Reqb_spec (-1) 0); [lra|]. auto.
    + destruct (Reqb_spec 0 0); [|lra].
      assert (d = 0).
      { destruct (Rtotal_order d 0) as [K|[K|K]]; auto.
        - assert (0 < sin (- d)) by (apply sin_gt_0; lra). rewrite sin_neg in *. lra.
        - assert (0 < sin d) by (apply sin_gt_0; lra). lra. }
      subst d. fixR; ring.
Qed.

(** ** rotor_disk_points *)
Lemma nth_linspace (a b : R) n i :
  (2 <= n)%nat -> (i < n)%nat ->
  nth_error (linspace (N := RN) a b n) i = Some (a + INR i * ((b - a) / INR (n - 1))).
Proof.
  intros Hn Hi. destruct n as [|[|k]]; [lia|lia|].
  unfold linspace. rewrite nth_error_map.
  rewrite (nth_error_nth' _ 0%nat) by (rewrite seq_length; lia).
  rewrite seq_nth by lia. cbn [option_map nadd nmul ndiv nsub nZ RN].
  rewrite <- !INR_IZR_INZ. replace (S (S k) - 1)%nat with (S k) by lia. reflexivity.
Qed.
Lemma linspace_len (a b : R) n : List.length (linspace (N := RN) a b n) = n.
Proof. destruct n as [|[|k]]; auto. unfold linspace. rewrite map_length, seq_length. auto. Qed.

Lemma rotor_point_dist (sh o hub : R3) R th : unit3 sh -> unit3 o -> perp o sh -> 0 <= R ->
  let p := vadd (N := RN) hub (mvec (N := RN) (RotMat_AxisAngle (N := RN) sh th) (vscale (N := RN) R o)) in
  length3 (sub3 p hub) = R /\ inner (sub3 p hub) sh = 0.
Proof.
  intros H1 H2 H3 HR. cbv zeta.
  change (mvec (N := RN)) with mv. rewrite RotMat_rodrigues, vscale_scal3, vadd_add3.
  assert (E : sub3 (add3 hub (rotate sh th (scal3 R o))) hub = scal3 R (rotate sh th o)).
  { rewrite rotate_scal. generalize (rotate sh th o). intros; clear; pt3; unf; t3; ring. }
  rewrite E. split.
  - rewrite length3_scal, length3_unit, Rabs_pos_eq; try lra.
    unfold unit3. rewrite rotate_inner by auto. apply H2.
  - rewrite inner_scal_l. rewrite <- (rotate_axis sh th) at 2 by auto.
    rewrite rotate_inner by auto. unfold perp in H3. rewrite H3. ring.
Qed.

Lemma inv_sqrt3_sq : 0 < / sqrt 3 /\ / sqrt 3 * / sqrt 3 = / 3.
Proof.
  assert (0 < sqrt 3) by (apply sqrt_lt_R0; lra). split; [apply Rinv_0_lt_compat; auto|].
  rewrite <- Rinv_mult. rewrite sqrt_sqrt by lra. reflexivity.
Qed.

(** In the extended reals: orth_vect of a finite vector. *)
Definition lift3 (a : R3) : XN * XN * XN := (Fin (px a), Fin (py a), Fin (pz a)).
Lemma normalize_lift (a : R3) : inner a a <> 0 ->
  vdivs (N := XN) (lift3 a) (norm (N := XN) (lift3 a)) = lift3 (scal3 (/ length3 a) a)
  /\ 0 < length3 a.
Proof.
  intros H. assert (Hp : 0 < inner a a) by (pose proof (inner_pos a); lra).
  assert (Hl : 0 < length3 a) by (apply sqrt_lt_R0; auto).
  split; auto.
  assert (E : norm (N := XN) (lift3 a) = Fin (length3 a)).
  { pt3. unfold norm, lift3. change (nsqrt XN) with xsqrt.
    cbn [sq nadd nmul XN xadd xmul px py pz fst snd]. unfold length3.
    apply xsqrt_fin. pose proof (inner_pos (r, r1, r0)). unf; lra. }
  rewrite E. unfold vdivs, lift3. change (ndiv XN) with xdiv. rewrite !xdiv_fin by lra.
  unfold scal3, px, py, pz; cbn [fst snd]. unfold Rdiv. t3; f_equal; ring.
Qed.
Lemma unit_scal (a : R3) : inner a a <> 0 -> unit3 (scal3 (/ length3 a) a).
Proof.
  intros H. assert (Hp : 0 < inner a a) by (pose proof (inner_pos a); lra).
  assert (Hl : 0 < length3 a) by (apply sqrt_lt_R0; auto).
  unfold unit3. rewrite inner_scal_l, inner_scal_r.
  replace (inner a a) with (length3 a * length3 a) by (apply sqrt_sqrt; lra).
  field. lra.
Qed.
Lemma xsqrt3 : xdiv (Fin 1) (xsqrt (Fin 3)) = Fin (/ sqrt 3).
Proof.
  assert (0 < sqrt 3) by (apply sqrt_lt_R0; lra).
  rewrite xsqrt_fin by lra. rewrite xdiv_fin by lra. f_equal. unfold Rdiv; ring.
Qed.

Lemma orth_vect_ok (a : R3) : inner a a <> 0 ->
  exists o, orth_vect (N := XN) (lift3 a) = Ok (lift3 o) /\ unit3 o /\ perp o a.
Proof.
  intros H. unfold orth_vect. destruct (normalize_lift a H) as [E Hl]. rewrite E.
  pose proof (unit_scal a H) as HU.
  assert (HPa : forall o, perp o (scal3 (/ length3 a) a) -> perp o a).
  { intros o Ho. unfold perp in *. rewrite inner_scal_r in Ho.
    apply Rmult_integral in Ho. destruct Ho as [Ho|Ho]; auto.
    exfalso. assert (0 < / length3 a) by (apply Rinv_0_lt_compat; auto). lra. }
  destruct (scal3 (/ length3 a) a) as [[u0 u1] u2].
  unfold lift3 at 1. cbn [px py pz fst snd].
  change (ndiv XN) with xdiv. change (nsqrt XN) with xsqrt.
  change (nZ XN 1) with (Fin 1). change (nZ XN 3) with (Fin 3). rewrite xsqrt3.
  destruct inv_sqrt3_sq as [Hq Hq2]. set (q := / sqrt 3) in *.
  change (nle XN) with xle. change (nabs XN) with xabs. cbn [xabs xle].
  unfold unit3 in HU. unf.
  assert (Fin_case : forall w : R3, inner w w <> 0 -> inner w (u0, u1, u2) = 0 ->
     exists o, Ok (vdivs (N := XN) (lift3 w) (norm (N := XN) (lift3 w))) = Ok (lift3 o)
               /\ unit3 o /\ perp o a).
  { intros w Hw Hp. destruct (normalize_lift w Hw) as [Ew _]. rewrite Ew.
    eexists; split; [reflexivity|]. split; [apply unit_scal; auto|].
    apply HPa. unfold perp. rewrite inner_scal_l, Hp. ring. }
  assert (SQ : forall x, q <= Rabs x -> / 3 <= x * x).
  { intros x Hx. rewrite <- Hq2. pose proof (Rabs_pos x).
    replace (x * x) with (Rabs x * Rabs x) by (rewrite <- Rabs_mult; apply Rabs_pos_eq; nra). nra. }
  assert (SQ' : forall x, Rabs x < q -> x * x < / 3).
  { intros x Hx. rewrite <- Hq2. pose proof (Rabs_pos x).
    replace (x * x) with (Rabs x * Rabs x) by (rewrite <- Rabs_mult; apply Rabs_pos_eq; nra). nra. }
  destruct (Rleb_spec q (Rabs u0)) as [K0|K0].
  - apply (Fin_case (- u1, u0, 0)); unf; [|ring]. specialize (SQ _ K0). nra.
  - destruct (Rleb_spec q (Rabs u1)) as [K1|K1].
    + apply (Fin_case (0, - u2, u1)); unf; [|ring]. specialize (SQ _ K1). nra.
    + destruct (Rleb_spec q (Rabs u2)) as [K2|K2].
      * apply (Fin_case (u2, 0, - u0)); unf; [|ring]. specialize (SQ _ K2). nra.
      * exfalso. pose proof (SQ' u0 ltac:(lra)). pose proof (SQ' u1 ltac:(lra)).
        pose proof (SQ' u2 ltac:(lra)). lra.
Qed.
Lemma orth_vect_zero :
  orth_vect (N := XN) (lift3 (0, 0, 0)) = Err (EException "Cannot find orthogonal vector to a zero vector").
Proof.
  unfold orth_vect.
  assert (E : vdivs (N := XN) (lift3 (0,0,0)) (norm (N := XN) (lift3 (0,0,0))) = (NaN, NaN, NaN)).
  { unfold norm, lift3, vdivs. cbn [px py pz fst snd sq].
    change (nsqrt XN) with xsqrt. change (ndiv XN) with xdiv.
    cbn [nadd nmul XN xadd xmul sq]. rewrite xsqrt_fin by lra.
    replace (0 * 0 + 0 * 0 + 0 * 0) with 0 by ring. rewrite sqrt_0. simpl.
    destruct (Reqb_spec 0 0); [|lra]. unfold xinf_mul.
    destruct (Rltb_spec 0 0); [lra|]. reflexivity. }
  rewrite E. change (ndiv XN (nZ XN 1) (nsqrt XN (nZ XN 3))) with (xdiv (Fin 1) (xsqrt (Fin 3))). rewrite xsqrt3. reflexivity.
Qed.
