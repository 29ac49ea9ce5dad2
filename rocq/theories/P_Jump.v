(** * C130: the velocity across the vortex sheets of a cylinder *)
From Coquelicot Require Import Coquelicot.
From Coq Require Import ZArith List Bool Arith Lia String Reals Lra Psatz.
From Verif Require Import Num NumR NumX M_Elliptic M_Line M_Cylinder M_Ring M_Doublet M_Skewed L_List L_X L_Angles L_Built Spec SpecBS L_Calc L_Ell L_Cyl P_Line P_Ring P_Doublet P_Skewed P_Cylinder P_Cylinder2 P_Cylinder3 P_Longi P_RingApprox.
Import ListNotations.
Local Open Scope R_scope.
Local Notation len := List.length.

Lemma inv_diff z w1 w2 : z <> 0 -> Rabs z <= w1 -> Rabs z <= w2 -> Rabs (/ w1 - / w2) <= Rabs (w1 * w1 - w2 * w2) / (2 * Rabs z ^ 3).
Proof.
  intros hz H1 H2. pose proof (Rabs_pos_lt z hz) as hZ. set (a := Rabs z) in *. assert (P1 : 0 < w1) by lra. assert (P2 : 0 < w2) by lra. 
  replace (/ w1 - / w2) with (- (w1 * w1 - w2 * w2) * / (w1 * w2 * (w1 + w2))) by (field; repeat split; lra).
  assert (Q : a * a <= w1 * w2) by (apply Rmult_le_compat; lra). assert (Q2 : a * a * (2 * a) <= w1 * w2 * (w1 + w2)) by (apply Rmult_le_compat; try lra; apply Rmult_le_pos; lra).
  assert (Q3 : 0 < a * a * (2 * a)) by (repeat apply Rmult_lt_0_compat; lra).
  rewrite Rabs_mult, Rabs_Ropp, (Rabs_pos_eq (/ _)) by (apply Rlt_le, Rinv_0_lt_compat; lra). apply Rmult_le_compat_l; [apply Rabs_pos|].
  replace (2 * a ^ 3) with (a * a * (2 * a)) by ring. apply Rinv_le_contravar; auto.
Qed.
Section Jump.
  Variables Rr r z : R.
  Hypothesis hR : 0 < Rr.
  Hypothesis hr : 0 <= r.
  Hypothesis hz : z <> 0.
  Let d := Rabs (r - Rr).
  Lemma d_ge : 0 <= d.
  Proof using. apply Rabs_pos. Qed.
  Lemma r_le : r <= Rr + d.
  Proof using. unfold d. pose proof (Rle_abs (r - Rr)). lra. Qed.
  Lemma Z3 : 0 < Rabs z ^ 3.
  Proof using hz. apply pow_lt, Rabs_pos_lt, hz. Qed.
  Lemma dd_ge s t : 0 <= s -> z * z <= dd s Rr z t.
  Proof using hR.
    intros Hs. unfold dd. pose proof (COS_bound t). pose proof (Rsq_pos (s - Rr)). assert (0 <= s * Rr) by (apply Rmult_le_pos; lra). assert (s * Rr * cos t <= s * Rr) by nra. lra.
  Qed.
  Lemma w_ge s t : 0 <= s -> Rabs z <= sqrt (dd s Rr z t) /\ sqrt (dd s Rr z t) * sqrt (dd s Rr z t) = dd s Rr z t.
  Proof using hR.
    intros Hs. pose proof (dd_ge s t Hs). pose proof (Rsq_pos z). split; [|apply sqrt_sqrt; lra]. rewrite <- sqrt_Rsqr_abs. apply sqrt_le_1_alt. unfold Rsqr. lra.
  Qed.
  Lemma offz s : 0 < (s - Rr) * (s - Rr) + z * z.
  Proof using hz. pose proof (Rsq_pos (s - Rr)). pose proof (Rsq_lt z hz). lra. Qed.
  Lemma w_diff t : Rabs (/ sqrt (dd r Rr z t) - / sqrt (dd Rr Rr z t)) <= d * (4 * Rr + d) / (2 * Rabs z ^ 3).
  Proof using hR hr hz.
    destruct (w_ge r t hr) as [A1 A2]. destruct (w_ge Rr t ltac:(lra)) as [B1 B2]. eapply Rle_trans; [apply (inv_diff z); auto|]. rewrite A2, B2.
    pose proof Z3. apply Rmult_le_compat_r; [apply Rlt_le, Rinv_0_lt_compat; lra|].
    replace (dd r Rr z t - dd Rr Rr z t) with ((r - Rr) * (r + Rr - 2 * Rr * cos t)) by (unfold dd; ring). rewrite Rabs_mult. fold d. apply Rmult_le_compat_l; [apply d_ge|].
    pose proof r_le. pose proof (COS_bound t). apply Rabs_le. nra.
  Qed.
  Lemma II1_near : Rabs (II1 r Rr z - II1 Rr Rr z) <= 2 * PI * (d * (4 * Rr + d) / (2 * Rabs z ^ 3)).
  Proof using hR hr hz.
    apply (int_err (fun t => / sqrt (dd r Rr z t) - / sqrt (dd Rr Rr z t))); [|apply w_diff].
    apply (is_RInt_minus (V := R_NormedModule)); apply int1; auto; try apply offz; lra.
  Qed.
  Lemma JJ_near : Rabs (JJ r Rr z - JJ Rr Rr z) <= 2 * PI * (d * (4 * Rr + d) / (2 * Rabs z ^ 3)).
  Proof using hR hr hz.
    apply (int_err (fun t => cos t * / sqrt (dd r Rr z t) - cos t * / sqrt (dd Rr Rr z t))).
    - apply (is_RInt_minus (V := R_NormedModule)); apply JJ_int; auto; try apply offz; lra.
    - intros t. rewrite <- Rmult_minus_distr_l, Rabs_mult. pose proof (w_diff t) as W. pose proof (cosb t). pose proof (Rabs_pos (cos t)). set (e := / sqrt _ - _) in *. pose proof (Rabs_pos e). nra.
  Qed.
  Hypothesis ne : r <> Rr.
  Let s := if Rlt_dec r Rr then 1 else -1.
  Lemma s_facts : Rr - r = s * d /\ Rabs s = 1 /\ 0 < d.
  Proof using ne.
    unfold s, d. destruct (Rlt_dec r Rr).
    - rewrite Rabs_left by lra. rewrite Rabs_R1. repeat split; lra.
    - rewrite Rabs_right by lra. rewrite (Rabs_left (-1)) by lra. repeat split; lra.
  Qed.
  Lemma da_facts t : 0 < da r Rr t /\ dd r Rr z t - dd r Rr z 0 <= da r Rr t /\ 0 <= dd r Rr z t - dd r Rr z 0.
  Proof using hR hr ne.
    assert (0 < da r Rr t) by (unfold da; apply dd_pos; auto; pose proof (Rsq_lt (r - Rr) ltac:(lra)); lra).
    split; auto. unfold da, dd. rewrite cos_0. pose proof (COS_bound t). pose proof (Rsq_pos (r - Rr)). assert (0 <= r * Rr) by (apply Rmult_le_pos; lra). split; nra.
  Qed.
  Lemma II3_near : Rabs ((Rr * Rr - r * r) * II3 r Rr z - s * 2 * PI * / sqrt (dd r Rr z 0)) <= 2 * PI * (d * (2 * Rr + d) / (2 * Rabs z ^ 3)).
  Proof using hR hr hz ne.
    destruct s_facts as (S1 & S2 & S3). pose proof PI_RGT_0 as HP. pose proof Z3 as HZ.
    assert (W0 : 0 < sqrt (dd r Rr z 0)) by (destruct (w_ge r 0 hr); pose proof (Rabs_pos_lt z hz); lra).
    apply (int_err (fun t => (Rr * Rr - r * r) * / (da r Rr t * sqrt (dd r Rr z t)) - (Rr * Rr - r * r) * / sqrt (dd r Rr z 0) * / da r Rr t)).
    - assert (K := is_RInt_minus _ _ _ _ _ _ (is_RInt_scal _ _ _ (Rr * Rr - r * r) _ (int3 r Rr z hr hR ne)) (is_RInt_scal _ _ _ ((Rr * Rr - r * r) * / sqrt (dd r Rr z 0)) _ (int0 r Rr hr hR ne))).
      match type of K with is_RInt _ _ _ ?v => change v with ((Rr * Rr - r * r) * II3 r Rr z - (Rr * Rr - r * r) * / sqrt (dd r Rr z 0) * (2 * PI / (Rabs (r - Rr) * (r + Rr)))) in K end.
      replace (s * 2 * PI * / sqrt (dd r Rr z 0)) with ((Rr * Rr - r * r) * / sqrt (dd r Rr z 0) * (2 * PI / (Rabs (r - Rr) * (r + Rr)))); [exact K|].
      replace (Rr * Rr - r * r) with ((Rr - r) * (Rr + r)) by ring. rewrite S1. fold d. field. repeat split; lra.
    - intros t. destruct (da_facts t) as (D1 & D2 & D3). destruct (w_ge r t hr) as [A1 A2]. destruct (w_ge r 0 hr) as [B1 B2].
      assert (WT : 0 < sqrt (dd r Rr z t)) by (pose proof (Rabs_pos_lt z hz); lra).
      replace ((Rr * Rr - r * r) * / (da r Rr t * sqrt (dd r Rr z t)) - (Rr * Rr - r * r) * / sqrt (dd r Rr z 0) * / da r Rr t) with ((Rr - r) * (Rr + r) * / da r Rr t * (/ sqrt (dd r Rr z t) - / sqrt (dd r Rr z 0))) by (field; repeat split; lra).
      rewrite S1, !Rabs_mult, S2, (Rabs_pos_eq d), (Rabs_pos_eq (Rr + r)), (Rabs_pos_eq (/ da r Rr t)) by (try apply Rlt_le, Rinv_0_lt_compat; lra).
      pose proof (inv_diff z _ _ hz A1 B1) as I. rewrite A2, B2, (Rabs_pos_eq (dd r Rr z t - dd r Rr z 0)) in I by auto.
      apply Rle_trans with (1 * d * (Rr + r) * / da r Rr t * (da r Rr t / (2 * Rabs z ^ 3))).
      + apply Rmult_le_compat_l; [repeat apply Rmult_le_pos; try lra; apply Rlt_le, Rinv_0_lt_compat; lra|]. eapply Rle_trans; [exact I|]. apply Rmult_le_compat_r; auto. apply Rlt_le, Rinv_0_lt_compat; lra.
      + replace (1 * d * (Rr + r) * / da r Rr t * (da r Rr t / (2 * Rabs z ^ 3))) with (d * (Rr + r) / (2 * Rabs z ^ 3)) by (field; repeat split; try lra; apply Rabs_no_R0; auto).
        apply Rmult_le_compat_r; [apply Rlt_le, Rinv_0_lt_compat; lra|]. apply Rmult_le_compat_l; [lra|]. pose proof r_le. lra.
  Qed.
  Lemma dist0 : Rabs (z / sqrt (dd r Rr z 0) - z / Rabs z) <= d * d / (2 * (z * z)).
  Proof using hR hr hz.
    pose proof (Rabs_pos_lt z hz) as hZ. destruct (w_ge r 0 hr) as [B1 B2]. assert (HZ := Z3). unfold Rdiv. rewrite <- Rmult_minus_distr_l, Rabs_mult.
    pose proof (inv_diff z (sqrt (dd r Rr z 0)) (Rabs z) hz B1 (Rle_refl _)) as I. rewrite B2 in I. 
    assert (ZZ : Rabs z * Rabs z = z * z) by (rewrite <- Rabs_mult; apply Rabs_pos_eq, Rsq_pos).
    replace (dd r Rr z 0 - Rabs z * Rabs z) with ((r - Rr) * (r - Rr)) in I by (rewrite ZZ; unfold dd; rewrite cos_0; ring). rewrite Rabs_mult in I. fold d in I.
    eapply Rle_trans; [apply Rmult_le_compat_l; [lra|exact I]|]. apply Req_le. rewrite <- ZZ. field. lra.
  Qed.
  (** the two terms of the axial velocity *)
  Let A1 := 2 * PI + z * II1 r Rr z.
  Let A2 := s * 2 * PI + z * ((Rr * Rr - r * r) * II3 r Rr z).
  Let A0 := 2 * PI + z * II1 Rr Rr z.
  Lemma A_near : Rabs (A1 - A0) <= PI * (d * (4 * Rr + d)) / (z * z) /\ Rabs (A2 - s * 2 * PI * (1 + z / Rabs z)) <= PI * (d * (2 * Rr + 2 * d)) / (z * z).
  Proof using hR hr hz ne.
    pose proof (Rabs_pos_lt z hz) as hZ. pose proof PI_RGT_0 as HP. destruct s_facts as (S1 & S2 & S3). destruct (w_ge r 0 hr) as [B1 B2].
    assert (ZZ : Rabs z * Rabs z = z * z) by (rewrite <- Rabs_mult; apply Rabs_pos_eq, Rsq_pos). split.
    - unfold A1, A0. replace (2 * PI + z * II1 r Rr z - (2 * PI + z * II1 Rr Rr z)) with (z * (II1 r Rr z - II1 Rr Rr z)) by ring. rewrite Rabs_mult.
      eapply Rle_trans; [apply Rmult_le_compat_l; [lra|apply II1_near]|]. apply Req_le. rewrite <- ZZ. field. lra.
    - unfold A2. replace (s * 2 * PI + z * ((Rr * Rr - r * r) * II3 r Rr z) - s * 2 * PI * (1 + z / Rabs z)) with
        (z * ((Rr * Rr - r * r) * II3 r Rr z - s * 2 * PI * / sqrt (dd r Rr z 0)) + s * 2 * PI * (z / sqrt (dd r Rr z 0) - z / Rabs z)) by (field; lra).
      eapply Rle_trans; [apply Rabs_triang|]. rewrite !Rabs_mult, S2, (Rabs_pos_eq 2), (Rabs_pos_eq PI) by lra.
      pose proof II3_near as I3. pose proof dist0 as I0.
      apply Rle_trans with (Rabs z * (2 * PI * (d * (2 * Rr + d) / (2 * Rabs z ^ 3))) + 1 * 2 * PI * (d * d / (2 * (z * z)))).
      + apply Rplus_le_compat; apply Rmult_le_compat_l; auto; lra.
      + apply Req_le. rewrite <- ZZ. field. lra.
  Qed.
  Lemma Cz_on g : Cz g Rr Rr z = g / (8 * PI) * A0.
  Proof using hR hz.
    pose proof PI_RGT_0. pose proof (a2_pos Rr Rr z (offz Rr) ltac:(lra) hR). assert (0 < sqrt (a2 Rr Rr z)) by (apply sqrt_lt_R0; auto).
    unfold Cz, CzP, A0, II1. destruct (Req_EM_T Rr Rr) as [_|E]; [|lra]. field. split; lra.
  Qed.
  Lemma Cz_off g : Cz g Rr r z = g / (8 * PI) * (A1 + A2).
  Proof using hR hr hz ne.
    pose proof PI_RGT_0. pose proof (a2_pos r Rr z (offz r) hr hR). assert (0 < sqrt (a2 r Rr z)) by (apply sqrt_lt_R0; auto).
    unfold Cz, CzP, A1, A2, II1, II3, s. destruct (Req_EM_T r Rr) as [E|_]; [lra|]. destruct (Rlt_dec r Rr) as [L|L]; field; repeat split; lra.
  Qed.
  Lemma Cl_off g : 0 < r -> r / Rr * Cl g Rr r z = g / (8 * PI) * (A1 - A2).
  Proof using hR hr hz ne.
    intros h0. pose proof PI_RGT_0. pose proof (a2_pos r Rr z (offz r) hr hR). assert (0 < sqrt (a2 r Rr z)) by (apply sqrt_lt_R0; auto).
    unfold Cl, ClP, A1, A2, II1, II3, s. destruct (Rlt_dec r Rr) as [L|L]; field; repeat split; lra.
  Qed.
  Lemma g8 g e B : Rabs e <= PI * B / (z * z) -> Rabs (g / (8 * PI) * e) <= Rabs g * B / (8 * (z * z)).
  Proof using hz.
    intros H. pose proof PI_RGT_0. pose proof (Rsq_lt z hz). unfold Rdiv at 1. rewrite !Rabs_mult, (Rabs_pos_eq (/ _)) by (apply Rlt_le, Rinv_0_lt_compat; lra).
    eapply Rle_trans; [apply Rmult_le_compat_l; [apply Rmult_le_pos; [apply Rabs_pos|apply Rlt_le, Rinv_0_lt_compat; lra]|exact H]|]. apply Req_le. field. split; lra.
  Qed.
  Lemma Cz_jump g : Rabs (Cz g Rr r z - (Cz g Rr Rr z + s * (g / 4) * (1 + z / Rabs z))) <= Rabs g * (3 * d * (2 * Rr + d)) / (8 * (z * z)).
  Proof using hR hr hz ne.
    rewrite Cz_on, Cz_off. pose proof PI_RGT_0 as HP. pose proof (Rabs_pos_lt z hz). destruct A_near as [N1 N2]. pose proof (Rsq_lt z hz).
    replace (g / (8 * PI) * (A1 + A2) - (g / (8 * PI) * A0 + s * (g / 4) * (1 + z / Rabs z))) with (g / (8 * PI) * ((A1 - A0) + (A2 - s * 2 * PI * (1 + z / Rabs z)))) by (field; split; lra).
    apply g8. eapply Rle_trans; [apply Rabs_triang|]. eapply Rle_trans; [apply Rplus_le_compat; [exact N1|exact N2]|]. apply Req_le. field. lra.
  Qed.
  Lemma Cl_jump g : 0 < r -> Rabs (r / Rr * Cl g Rr r z - (Cz g Rr Rr z - s * (g / 4) * (1 + z / Rabs z))) <= Rabs g * (3 * d * (2 * Rr + d)) / (8 * (z * z)).
  Proof using hR hr hz ne.
    intros h0. rewrite Cz_on, Cl_off by auto. pose proof PI_RGT_0 as HP. pose proof (Rabs_pos_lt z hz). destruct A_near as [N1 N2]. pose proof (Rsq_lt z hz).
    replace (g / (8 * PI) * (A1 - A2) - (g / (8 * PI) * A0 - s * (g / 4) * (1 + z / Rabs z))) with (g / (8 * PI) * ((A1 - A0) + - (A2 - s * 2 * PI * (1 + z / Rabs z)))) by (field; split; lra).
    apply g8. eapply Rle_trans; [apply Rabs_triang|]. rewrite Rabs_Ropp. eapply Rle_trans; [apply Rplus_le_compat; [exact N1|exact N2]|]. apply Req_le. field. lra.
  Qed.
End Jump.

Lemma Cr_jump g Rr r z : 0 < Rr -> 0 <= r -> z <> 0 -> Rabs (Cr g Rr r z - Cr g Rr Rr z) <= Rabs g * Rr * (Rabs (r - Rr) * (4 * Rr + Rabs (r - Rr))) / (4 * Rabs z ^ 3).
Proof.
  intros hR hr hz. pose proof PI_RGT_0. pose proof (Rabs_pos_lt z hz). unfold Cr. rewrite <- Rmult_minus_distr_l, Rabs_mult, Rabs_Ropp. unfold Rdiv at 1. rewrite !Rabs_mult, (Rabs_pos_eq Rr), (Rabs_pos_eq (/ _)) by (try apply Rlt_le, Rinv_0_lt_compat; lra).
  eapply Rle_trans; [apply Rmult_le_compat_l; [|apply JJ_near; auto]|].
  - apply Rmult_le_pos; [apply Rmult_le_pos; [apply Rabs_pos|lra]|apply Rlt_le, Rinv_0_lt_compat; lra].
  - apply Req_le. field. split; lra.
Qed.
(** ** Specification: the distance to the sheet and the bounds *)
Definition gap (Rr : R) (p : R3) : R := Rabs (sqrt (px p ^ 2 + py p ^ 2) - Rr).
Definition eps_z (g Rr : R) (p : R3) : R := Rabs g * (3 * gap Rr p * (2 * Rr + gap Rr p)) / (8 * (pz p * pz p)).
Definition eps_r (g Rr : R) (p : R3) : R := Rabs g * Rr * (gap Rr p * (4 * Rr + gap Rr p)) / (4 * Rabs (pz p) ^ 3).

Lemma rho_pow p : sqrt (px p ^ 2 + py p ^ 2) = rho p.
Proof. unfold rho. f_equal. ring. Qed.
Lemma off_rim Rr r z : 0 < Rr -> 1 / 100000000 * Rr <= Rabs z -> ~ rim_zone Rr r z /\ z <> 0.
Proof.
  intros hR H. split.
  - intros [_ Z]. unfold Rdiv at 1 in Z. rewrite Rabs_mult, (Rabs_pos_eq (/ Rr)) in Z by (apply Rlt_le, Rinv_0_lt_compat; auto). apply (Rmult_lt_compat_r Rr) in Z; auto. rewrite Rmult_assoc, Rinv_l, Rmult_1_r in Z by lra. lra.
  - intros ->. rewrite Rabs_R0 in H. lra.
Qed.
Lemma vc_value PIb g Rr (pts : list R3) i p : third PIb exact3 -> 0 < Rr -> nth_error pts i = Some p -> 1 / 10000000 * Rr <= rho p -> ~ rim_zone Rr (rho p) (pz p) ->
  nth_error (vc_tang_polar_gen (N := XN) PIb (Fin g) (Fin Rr) (Fin 0) (map xv pts)) i = Some (Fin (Cr g Rr (rho p) (pz p)), Fin (Cz g Rr (rho p) (pz p))).
Proof.
  intros HT hR Hi HA NR. destruct (vcu_at PIb exact3 g Rr pts i p HT hR Hi) as (q & E1 & _ & _ & Hq). rewrite E1. unfold vcR.
  destruct (rimb_spec Rr (rho p) (pz p)) as [Z|_]; [contradiction|]. destruct (axisb_spec Rr (rho p)) as [Z|Z]; [unfold axis_zone in Z; lra|].
  unfold L_Carlson.F2. cbn [fst snd]. destruct (Req_dec (rho p) Rr) as [E|E].
  - unfold Cz, CzP. destruct (Req_EM_T (rho p) Rr); [reflexivity|contradiction].
  - rewrite Hq; auto. unfold regb, rzp; cbn [fst snd]; destruct (axisb_spec Rr (rho p)); [contradiction|]; destruct (rimb_spec Rr (rho p) (pz p)) as [Z'|_]; [contradiction|reflexivity].
Qed.
(** ** Theorems *)
(** across the sheet of tangential vorticity the axial velocity jumps by the intensity, where there is a sheet; on the sheet the routine returns the mean
    of the two sides; the radial velocity is continuous *)
Theorem C130_tangential_sheet : forall PIb, third PIb exact3 -> forall g Rr (pts : list R3) i j k a b c z, 0 < Rr ->
  nth_error pts i = Some a -> nth_error pts j = Some b -> nth_error pts k = Some c -> pz a = z -> pz b = z -> pz c = z -> 1 / 100000000 * Rr <= Rabs z ->
  1 / 10000000 * Rr <= sqrt (px a ^ 2 + py a ^ 2) < Rr -> sqrt (px b ^ 2 + py b ^ 2) = Rr -> Rr < sqrt (px c ^ 2 + py c ^ 2) ->
  let u := nth_error (vc_tang_polar_gen (N := XN) PIb (Fin g) (Fin Rr) (Fin 0) (map xv pts)) in
  exists ra za rb zb rc zc, u i = Some (Fin ra, Fin za) /\ u j = Some (Fin rb, Fin zb) /\ u k = Some (Fin rc, Fin zc) /\
    Rabs (za - zc - (if Rlt_dec 0 z then g else 0)) <= eps_z g Rr a + eps_z g Rr c /\
    Rabs ((za + zc) / 2 - zb) <= (eps_z g Rr a + eps_z g Rr c) / 2 /\
    Rabs (ra - rb) <= eps_r g Rr a /\ Rabs (rc - rb) <= eps_r g Rr c.
Proof.
  intros PIb HT g Rr pts i j k a b c z hR Ha Hb Hc Za Zb Zc HZ A B C u. unfold eps_z, eps_r, gap. rewrite !rho_pow in *.
  destruct (off_rim Rr (rho a) z hR HZ) as [NA hz]. destruct (off_rim Rr (rho b) z hR HZ) as [NB _]. destruct (off_rim Rr (rho c) z hR HZ) as [NC _].
  assert (Va := vc_value PIb g Rr pts i a HT hR Ha ltac:(lra) ltac:(rewrite Za; auto)). assert (Vb := vc_value PIb g Rr pts j b HT hR Hb ltac:(lra) ltac:(rewrite Zb; auto)). assert (Vc := vc_value PIb g Rr pts k c HT hR Hc ltac:(lra) ltac:(rewrite Zc; auto)).
  rewrite Za in *. rewrite Zb, B in *. rewrite Zc in *.
  do 6 eexists. split; [exact Va|]. split; [exact Vb|]. split; [exact Vc|].
  assert (Ja := Cz_jump Rr (rho a) z hR ltac:(lra) hz ltac:(lra) g). assert (Jc := Cz_jump Rr (rho c) z hR ltac:(lra) hz ltac:(lra) g).
  destruct (Rlt_dec (rho a) Rr); [|lra]. destruct (Rlt_dec (rho c) Rr); [lra|].
  set (ea := Rabs g * (3 * Rabs (rho a - Rr) * _) / _) in *. set (ec := Rabs g * (3 * Rabs (rho c - Rr) * _) / _) in *.
  apply Rabs_le_between in Ja. apply Rabs_le_between in Jc.
  assert (SG : g / 4 * (1 + z / Rabs z) = (if Rlt_dec 0 z then g else 0) / 2).
  { destruct (Rlt_dec 0 z); [rewrite Rabs_pos_eq by lra|rewrite Rabs_left by lra]; field; lra. }
  rewrite Rmult_assoc, SG in Ja, Jc. set (G := if Rlt_dec 0 z then g else 0) in *.
  repeat split; try (apply Rabs_le; lra); apply Cr_jump; auto; lra.
Qed.
(** across the sheet of longitudinal vorticity the circulation along a circle about the axis jumps by the circulation of the half lines crossed *)
Theorem C130_longitudinal_sheet : forall PIb, third1 PIb exact3 -> forall g Rr (pts : list R3) i k a c z, 0 < Rr ->
  nth_error pts i = Some a -> nth_error pts k = Some c -> pz a = z -> pz c = z -> z <> 0 ->
  let ra := sqrt (px a ^ 2 + py a ^ 2) in let rc := sqrt (px c ^ 2 + py c ^ 2) in 0 < ra < Rr -> Rr < rc ->
  let u := nth_error (vc_longi_u_gen (N := XN) PIb (Fin g) (Fin Rr) true (map xv pts)) in
  exists ua uc, u i = Some (Fin 0, Fin ua, Fin 0) /\ u k = Some (Fin 0, Fin uc, Fin 0) /\
    Rabs (2 * PI * rc * uc - 2 * PI * ra * ua - (if Rlt_dec 0 z then 2 * PI * Rr * g else 0)) <= 2 * PI * Rr * (eps_z g Rr a + eps_z g Rr c).
Proof.
  intros PIb HT g Rr pts i k a c z hR Ha Hc Za Zc hz ra rc A C u. unfold ra, rc, eps_z, gap in *. clear ra rc. rewrite !rho_pow in *.
  assert (V : forall n p, nth_error pts n = Some p -> 0 < rho p -> rho p <> Rr -> u n = Some (Fin 0, Fin (Cl g Rr (rho p) (pz p)), Fin 0)).
  { intros n p Hn hp np. destruct (longi_at PIb exact3 g Rr pts n p HT hR Hn) as (v & Ev & Hv). specialize (Ev true). destruct Hv as (q & -> & Eq); [apply nn_lt; auto; lra|].
    cbv zeta in Ev. rewrite longi_upsi_X in Ev by auto. rewrite Eq in Ev. exact Ev. }
  assert (Va := V i a Ha ltac:(lra) ltac:(lra)). assert (Vc := V k c Hc ltac:(lra) ltac:(lra)). rewrite Za in *. rewrite Zc in *.
  do 2 eexists. split; [exact Va|]. split; [exact Vc|].
  assert (Ja := Cl_jump Rr (rho a) z hR ltac:(lra) hz ltac:(lra) g ltac:(lra)). assert (Jc := Cl_jump Rr (rho c) z hR ltac:(lra) hz ltac:(lra) g ltac:(lra)).
  destruct (Rlt_dec (rho a) Rr); [|lra]. destruct (Rlt_dec (rho c) Rr); [lra|]. pose proof PI_RGT_0.
  set (ea := Rabs g * (3 * Rabs (rho a - Rr) * _) / _) in *. set (ec := Rabs g * (3 * Rabs (rho c - Rr) * _) / _) in *.
  replace (2 * PI * rho c * Cl g Rr (rho c) z - 2 * PI * rho a * Cl g Rr (rho a) z - (if Rlt_dec 0 z then 2 * PI * Rr * g else 0)) with
    (2 * PI * Rr * (rho c / Rr * Cl g Rr (rho c) z - rho a / Rr * Cl g Rr (rho a) z - (if Rlt_dec 0 z then g else 0))) by (destruct (Rlt_dec 0 z); field; lra).
  assert (TP : 0 < 2 * PI * Rr) by (apply Rmult_lt_0_compat; lra). rewrite Rabs_mult, (Rabs_pos_eq (2 * PI * Rr)) by lra. apply Rmult_le_compat_l; [lra|].
  apply Rabs_le_between in Ja. apply Rabs_le_between in Jc.
  assert (SG : g / 4 * (1 + z / Rabs z) = (if Rlt_dec 0 z then g else 0) / 2).
  { destruct (Rlt_dec 0 z); [rewrite Rabs_pos_eq by lra|rewrite Rabs_left by lra]; field; lra. }
  rewrite Rmult_assoc, SG in Ja, Jc. set (G := if Rlt_dec 0 z then g else 0) in *. apply Rabs_le. lra.
Qed.
(** one diameter downstream, 1 percent of the radius on each side: the bounds are below half a percent of the intensity *)
Example C130_case : third PIexact exact3 /\ third1 PIexact exact3 /\ let p r := (r, 0, 2) in
  1 / 10000000 * 1 <= sqrt (px (p (99/100)) ^ 2 + py (p (99/100)) ^ 2) < 1 /\ sqrt (px (p 1) ^ 2 + py (p 1) ^ 2) = 1 /\ 1 < sqrt (px (p (101/100)) ^ 2 + py (p (101/100)) ^ 2) /\
  eps_z 1 1 (p (99/100)) + eps_z 1 1 (p (101/100)) <= 1 / 200.
Proof.
  split; [exact C54_exact_exists|]. split; [apply third1_exact|]. cbv zeta.
  assert (E : forall t, 0 <= t -> sqrt (px (t, 0, 2) ^ 2 + py (t, 0, 2) ^ 2) = t). { intros t Ht. unfold px, py. cbn [fst snd]. replace (t ^ 2 + 0 ^ 2) with (t * t) by ring. apply sqrt_square. auto. }
  unfold eps_z, gap. rewrite !E by lra. unfold pz. cbn [snd]. rewrite Rabs_R1, (Rabs_left (99/100 - 1)), (Rabs_right (101/100 - 1)) by lra. repeat split; lra.
Qed.
