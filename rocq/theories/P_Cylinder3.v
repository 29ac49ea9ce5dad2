(** * Properties of VortexCylinder.py: C54 (stack of rings, Biot-Savart), C57-C59 *)
From Coquelicot Require Import Coquelicot.
From Coq Require Import ZArith List Bool Arith Lia String Reals Lra Psatz.
From Verif Require Import Num NumR NumX M_Elliptic M_Line M_Cylinder M_Ring M_Doublet M_Skewed L_List L_X L_Angles L_Built Spec SpecBS L_Calc L_Ell L_Cyl L_Carlson P_Line P_Ring P_Doublet P_Skewed P_Cylinder P_Cylinder2.
Import ListNotations.
Local Open Scope R_scope.
Local Notation len := List.length.

(** ** Differentiation under the integral *)
Lemma param_deriv (f D : R -> R -> R) (F : R -> R) (P : R -> Prop) (a b x v : R) :
  locally x P -> (forall u t, P u -> is_derive (fun w => f w t) u (D u t)) -> (forall t, continuity_2d_pt D x t) ->
  (forall u, P u -> is_RInt (f u) a b (F u)) -> is_RInt (D x) a b v -> is_derive F x v.
Proof.
  intros HL HD HC HF HV. assert (Px : P x) by (apply locally_singleton; auto).
  apply (is_derive_ext_loc (fun u => RInt (fun t => f u t) a b)).
  { eapply filter_imp; [|exact HL]. intros u Pu. apply RInt_val. apply HF; auto. }
  replace v with (RInt (fun t => Derive (fun u => f u t) x) a b).
  - apply is_derive_RInt_param.
    + eapply filter_imp; [|exact HL]. intros u Pu t _. exists (D u t). apply HD; auto.
    + intros t _. apply (continuity_2d_pt_ext_loc D); [|apply HC].
      destruct HL as [e He]. exists e. intros u w Hu _. symmetry. apply is_derive_unique. apply HD. apply He. exact Hu.
    + eapply filter_imp; [|exact HL]. intros u Pu. eexists. apply HF; auto.
  - apply RInt_val. eapply is_RInt_ext; [|exact HV]. intros t _. symmetry. apply is_derive_unique. apply HD. auto.
Qed.
Lemma side_open (r Rr z : R) : r <> Rr \/ z < 0 -> locally z (fun u => r <> Rr \/ u < 0).
Proof.
  intros [H|H].
  - apply filter_forall. auto.
  - assert (L : locally z (fun u => u < 0)) by (apply (open_lt 0); auto). eapply filter_imp; [|exact L]. auto.
Qed.
Lemma ring_open (r Rr z : R) : 0 < (r - Rr) * (r - Rr) + z * z -> locally z (fun u => 0 < (r - Rr) * (r - Rr) + u * u).
Proof.
  intros H. destruct (Req_dec r Rr) as [E|E].
  - assert (Z : z <> 0). { intros ->. rewrite E in H. lra. }
    assert (L : locally z (fun u => u <> 0)) by (apply open_neq; auto). eapply filter_imp; [|exact L]. intros u Hu. cbn beta. pose proof (Rsq_lt u Hu). pose proof (Rsq_pos (r - Rr)). lra.
  - apply filter_forall. intros u. pose proof (Rsq_lt (r - Rr) ltac:(lra)). pose proof (Rsq_pos u). lra.
Qed.
Lemma dd_2d r Rr z t : continuity_2d_pt (fun u v => dd r Rr u v) z t.
Proof.
  unfold dd. apply (continuity_2d_pt_ext (fun u v => (r * r + Rr * Rr) + u * u + (- (2 * r * Rr)) * cos v)). { intros; ring. }
  apply continuity_2d_pt_plus; [apply continuity_2d_pt_plus|].
  - apply continuity_2d_pt_const.
  - apply (continuity_2d_pt_mult (fun u _ => u) (fun u _ => u)); apply continuity_2d_pt_id1.
  - apply (continuity_2d_pt_mult (fun _ _ => - (2 * r * Rr)) (fun _ v => cos v)); [apply continuity_2d_pt_const|].
    apply (continuity_1d_2d_pt_comp cos (fun _ v => v)); [apply continuity_cos|apply continuity_2d_pt_id2].
Qed.
Lemma d3_2d r Rr z t : 0 < dd r Rr z t -> continuity_2d_pt (fun u v => / (dd r Rr u v * sqrt (dd r Rr u v))) z t.
Proof.
  intros H. apply (continuity_2d_pt_inv (fun u v => dd r Rr u v * sqrt (dd r Rr u v))).
  - apply (continuity_2d_pt_mult (fun u v => dd r Rr u v) (fun u v => sqrt (dd r Rr u v))); [apply dd_2d|].
    apply (continuity_1d_2d_pt_comp sqrt (fun u v => dd r Rr u v)); [|apply dd_2d]. apply continuity_pt_filterlim. apply continuous_sqrt.
  - apply Rgt_not_eq, Rmult_lt_0_compat; auto. apply sqrt_lt_R0; auto.
Qed.
Lemma lin_cos_2d a b z t : continuity_2d_pt (fun _ v => a + b * cos v) z t.
Proof.
  apply (continuity_2d_pt_plus (fun _ _ => a) (fun _ v => b * cos v)); [apply continuity_2d_pt_const|].
  apply (continuity_2d_pt_mult (fun _ _ => b) (fun _ v => cos v)); [apply continuity_2d_pt_const|].
  apply (continuity_1d_2d_pt_comp cos (fun _ v => v)); [apply continuity_cos|apply continuity_2d_pt_id2].
Qed.
(** the axial derivative of the cylinder's closed form is the ring's closed form *)
Lemma Cz_deriv g Rr r z : 0 <= r -> 0 < Rr -> r <> Rr \/ z < 0 -> is_derive (Cz g Rr r) z (Wz g Rr r z).
Proof.
  intros hr hR H. pose proof PI_RGT_0 as HP. set (k := g * Rr / (4 * PI)).
  apply (param_deriv (fun u t => k * ((Rr - r * cos t) / (sqrt (dd r Rr u t) * (sqrt (dd r Rr u t) - u))))
          (fun u t => k * ((Rr + (- r) * cos t) * / (dd r Rr u t * sqrt (dd r Rr u t)))) _ (fun u => r <> Rr \/ u < 0) 0 (2 * PI)).
  - apply side_open; auto.
  - intros u t Hu. destruct (straight_row g Rr r 0 u t hr hR Hu) as (P1 & P2 & _). cbv zeta in *. rewrite Rminus_0_r in *.
    assert (SD : 0 < sqrt (dd r Rr u t)) by (apply sqrt_lt_R0; auto). assert (SS : sqrt (dd r Rr u t) * sqrt (dd r Rr u t) = dd r Rr u t) by (apply sqrt_sqrt; lra).
    unfold dd in *. unfold Rminus in P1, P2, SD, SS. auto_derive.
    + repeat split; auto. apply Rgt_not_eq, Rmult_lt_0_compat; lra.
    + unfold Rminus. set (w := sqrt (r * r + Rr * Rr + u * u + - (2 * r * Rr * cos t))) in *. rewrite <- SS. field. repeat split; lra.
  - intros t. apply (continuity_2d_pt_mult (fun _ _ => k) (fun u v => (Rr + (- r) * cos v) * / (dd r Rr u v * sqrt (dd r Rr u v)))); [apply continuity_2d_pt_const|].
    apply (continuity_2d_pt_mult (fun _ v => Rr + (- r) * cos v) (fun u v => / (dd r Rr u v * sqrt (dd r Rr u v)))); [apply lin_cos_2d|]. apply d3_2d.
    apply dd_pos; auto. apply off_ring; auto.
  - intros u Hu. apply axial_int; auto.
  - assert (off := off_ring r Rr z H). pose proof (int2 r Rr z off hr hR) as I2. pose proof (Jc_int r Rr z off hr hR) as J2.
    assert (K := is_RInt_scal _ _ _ k _ (is_RInt_minus _ _ _ _ _ _ (is_RInt_scal _ _ _ Rr _ I2) (is_RInt_scal _ _ _ r _ J2))).
    unfold Wz. fold k. eapply is_RInt_ext; [|exact K]. intros t _.
    match goal with |- ?a = ?b => change (k * (Rr * / (dd r Rr z t * sqrt (dd r Rr z t)) + - (r * (cos t * / (dd r Rr z t * sqrt (dd r Rr z t))))) = b) end. ring.
Qed.
Lemma Cr_deriv g Rr r z : 0 <= r -> 0 < Rr -> 0 < (r - Rr) * (r - Rr) + z * z -> is_derive (Cr g Rr r) z (Wr g Rr r z).
Proof.
  intros hr hR off. pose proof PI_RGT_0 as HP. set (k := g * Rr / (4 * PI)).
  apply (param_deriv (fun u t => - k * (cos t * / sqrt (dd r Rr u t)))
          (fun u t => (k * u) * ((0 + 1 * cos t) * / (dd r Rr u t * sqrt (dd r Rr u t)))) _ (fun u => 0 < (r - Rr) * (r - Rr) + u * u) 0 (2 * PI)).
  - apply ring_open; auto.
  - intros u t Hu. pose proof (dd_pos r Rr u Hu hr hR t) as P1.
    assert (SD : 0 < sqrt (dd r Rr u t)) by (apply sqrt_lt_R0; auto). assert (SS : sqrt (dd r Rr u t) * sqrt (dd r Rr u t) = dd r Rr u t) by (apply sqrt_sqrt; lra).
    unfold dd in *. unfold Rminus in P1, SD, SS. auto_derive.
    + repeat split; auto. lra.
    + unfold Rminus. set (w := sqrt (r * r + Rr * Rr + u * u + - (2 * r * Rr * cos t))) in *. rewrite <- SS. field. repeat split; lra.
  - intros t. apply (continuity_2d_pt_mult (fun u _ => k * u) (fun u v => (0 + 1 * cos v) * / (dd r Rr u v * sqrt (dd r Rr u v)))).
    { apply (continuity_2d_pt_mult (fun _ _ => k) (fun u _ => u)); [apply continuity_2d_pt_const|apply continuity_2d_pt_id1]. }
    apply (continuity_2d_pt_mult (fun _ v => 0 + 1 * cos v) (fun u v => / (dd r Rr u v * sqrt (dd r Rr u v)))); [apply lin_cos_2d|]. apply d3_2d.
    apply dd_pos; auto.
  - intros u Hu. pose proof (JJ_int r Rr u Hu hr hR) as J. assert (K := is_RInt_scal _ _ _ (- k) _ J). unfold Cr. fold k. exact K.
  - pose proof (Jc_int r Rr z off hr hR) as J2. assert (K := is_RInt_scal _ _ _ (k * z) _ J2). unfold Wr. fold k. eapply is_RInt_ext; [|exact K]. intros t _.
    match goal with |- ?a = ?b => change ((k * z) * (cos t * / (dd r Rr z t * sqrt (dd r Rr z t))) = b) end. ring.
Qed.

(** continuity of the ring's closed form along the axis *)
Lemma d3_deriv r Rr u t : 0 < dd r Rr u t ->
  is_derive (fun w => / (dd r Rr w t * sqrt (dd r Rr w t))) u (- (3 * u) * / (dd r Rr u t * dd r Rr u t * sqrt (dd r Rr u t))).
Proof.
  intros P1. assert (SD : 0 < sqrt (dd r Rr u t)) by (apply sqrt_lt_R0; auto). assert (SS : sqrt (dd r Rr u t) * sqrt (dd r Rr u t) = dd r Rr u t) by (apply sqrt_sqrt; lra).
  unfold dd in *. unfold Rminus in P1, SD, SS. auto_derive.
  - repeat split; auto. apply Rgt_not_eq, Rmult_lt_0_compat; lra.
  - unfold Rminus. set (w := sqrt (r * r + Rr * Rr + u * u + - (2 * r * Rr * cos t))) in *. rewrite <- SS. field. repeat split; lra.
Qed.
Lemma d5_2d r Rr z t : 0 < dd r Rr z t -> continuity_2d_pt (fun u v => - (3 * u) * / (dd r Rr u v * dd r Rr u v * sqrt (dd r Rr u v))) z t.
Proof.
  intros H. apply (continuity_2d_pt_mult (fun u _ => - (3 * u)) (fun u v => / (dd r Rr u v * dd r Rr u v * sqrt (dd r Rr u v)))).
  - apply (continuity_2d_pt_ext (fun u _ => (-3) * u)). { intros; ring. } apply (continuity_2d_pt_mult (fun _ _ => -3) (fun u _ => u)); [apply continuity_2d_pt_const|apply continuity_2d_pt_id1].
  - apply (continuity_2d_pt_inv (fun u v => dd r Rr u v * dd r Rr u v * sqrt (dd r Rr u v))).
    + apply (continuity_2d_pt_mult (fun u v => dd r Rr u v * dd r Rr u v) (fun u v => sqrt (dd r Rr u v))); [apply (continuity_2d_pt_mult (fun u v => dd r Rr u v) (fun u v => dd r Rr u v)); apply dd_2d|].
      apply (continuity_1d_2d_pt_comp sqrt (fun u v => dd r Rr u v)); [|apply dd_2d]. apply continuity_pt_filterlim. apply continuous_sqrt.
    + apply Rgt_not_eq, Rmult_lt_0_compat; [apply Rmult_lt_0_compat; auto|apply sqrt_lt_R0; auto].
Qed.
Lemma cont_2d_1d (D : R -> R -> R) x t : continuity_2d_pt D x t -> continuous (D x) t.
Proof.
  intros H. apply continuity_pt_filterlim. intros e He. destruct (H (mkposreal e He)) as [d Hd]. exists d. split; [apply cond_pos|].
  intros y [_ Hy]. apply (Hd x y); [rewrite Rminus_diag_eq, Rabs_R0 by reflexivity; apply cond_pos|exact Hy].
Qed.
Lemma d3c_cont a b r Rr z : 0 <= r -> 0 < Rr -> 0 < (r - Rr) * (r - Rr) + z * z ->
  forall F : R -> R, (forall u, 0 < (r - Rr) * (r - Rr) + u * u -> is_RInt (fun t => (a + b * cos t) * / (dd r Rr u t * sqrt (dd r Rr u t))) 0 (2 * PI) (F u)) -> continuous F z.
Proof.
  intros hr hR off F HF. set (D := fun u t => (a + b * cos t) * (- (3 * u) * / (dd r Rr u t * dd r Rr u t * sqrt (dd r Rr u t)))).
  assert (DC : forall t, continuity_2d_pt D z t).
  { intros t. apply (continuity_2d_pt_mult (fun _ v => a + b * cos v) (fun u v => - (3 * u) * / (dd r Rr u v * dd r Rr u v * sqrt (dd r Rr u v)))); [apply lin_cos_2d|apply d5_2d]. apply dd_pos; auto. }
  apply (ex_derive_continuous F). exists (RInt (D z) 0 (2 * PI)).
  apply (param_deriv (fun u t => (a + b * cos t) * / (dd r Rr u t * sqrt (dd r Rr u t))) D _ (fun u => 0 < (r - Rr) * (r - Rr) + u * u) 0 (2 * PI)).
  - apply ring_open; auto.
  - intros u t Hu. pose proof (d3_deriv r Rr u t (dd_pos r Rr u Hu hr hR t)) as K. apply (is_derive_scal _ _ (a + b * cos t)) in K. exact K.
  - exact DC.
  - exact HF.
  - apply cont_is_RInt. intros t. apply cont_2d_1d. apply DC.
Qed.
Lemma Wz_cont g Rr r z : 0 <= r -> 0 < Rr -> 0 < (r - Rr) * (r - Rr) + z * z -> continuous (Wz g Rr r) z.
Proof.
  intros hr hR off. set (k := g * Rr / (4 * PI)). apply (d3c_cont (k * Rr) (- (k * r)) r Rr z hr hR off). intros u Hu.
  pose proof (int2 r Rr u Hu hr hR) as I2. pose proof (Jc_int r Rr u Hu hr hR) as J2.
  assert (K := is_RInt_scal _ _ _ k _ (is_RInt_minus _ _ _ _ _ _ (is_RInt_scal _ _ _ Rr _ I2) (is_RInt_scal _ _ _ r _ J2))).
  unfold Wz. fold k. eapply is_RInt_ext; [|exact K]. intros t _.
  match goal with |- ?a = ?b => change (k * (Rr * / (dd r Rr u t * sqrt (dd r Rr u t)) + - (r * (cos t * / (dd r Rr u t * sqrt (dd r Rr u t))))) = b) end. ring.
Qed.
Lemma Wr_cont g Rr r z : 0 <= r -> 0 < Rr -> 0 < (r - Rr) * (r - Rr) + z * z -> continuous (Wr g Rr r) z.
Proof.
  intros hr hR off. set (k := g * Rr / (4 * PI)). unfold Wr. fold k. apply (continuous_mult (fun u => k * u) (fun u => Jc r Rr u)).
  - apply (ex_derive_continuous (fun u => k * u)). auto_derive. auto.
  - apply (d3c_cont 0 1 r Rr z hr hR off). intros u Hu. pose proof (Jc_int r Rr u Hu hr hR) as J2. eapply is_RInt_ext; [|exact J2]. intros t _. cbn beta. eqR. ring.
Qed.

(** ** C54 *)
(** radius at which the code evaluates its formulas: 0 in the axis zone *)
Definition rax (Rr r : R) : R := if axisb Rr r then 0 else r.
Definition off_surface (Rr : R) (p : R3) : Prop := 1 / 10000000 * Rr <= Rabs (rho p - Rr).
Lemma off_surface_facts Rr p : 0 < Rr -> off_surface Rr p ->
  (forall z, ~ rim_zone Rr (rho p) z) /\ (forall z, ~ near_ring Rr (rho p) z) /\ rho p <> Rr /\ 0 <= rax Rr (rho p) /\ rax Rr (rho p) <> Rr.
Proof.
  intros hR H. unfold off_surface in H. pose proof (rho_ge p) as hr. repeat split.
  - intros z [Z _]. assert (Rabs (rho p - Rr) / Rr * Rr < 1 / 100000000 * Rr) by (apply Rmult_lt_compat_r; auto).
    replace (Rabs (rho p - Rr) / Rr * Rr) with (Rabs (rho p - Rr)) in * by (field; lra). lra.
  - intros z [Z _]. lra.
  - intros E. rewrite E, Rminus_diag_eq, Rabs_R0 in H by reflexivity. lra.
  - unfold rax. destruct (axisb Rr (rho p)); lra.
  - unfold rax. destruct (axisb Rr (rho p)); [lra|]. intros E. rewrite E, Rminus_diag_eq, Rabs_R0 in H by reflexivity. lra.
Qed.
Lemma vc_off PIb g Rr pts i p : third PIb exact3 -> 0 < Rr -> nth_error pts i = Some p -> off_surface Rr p ->
  let r := rax Rr (rho p) in
  nth_error (vc_tang_u_gen (N := XN) PIb (Fin g) (Fin Rr) (Fin 0) (map xv pts)) i =
    Some (xv (Cr g Rr r (pz p) * cos (azim p), Cr g Rr r (pz p) * sin (azim p), Cz g Rr r (pz p))).
Proof.
  intros HT hR Hi HO r. destruct (off_surface_facts Rr p hR HO) as (NR & _ & NE & _). destruct (vcu_at PIb exact3 g Rr pts i p HT hR Hi) as (q & _ & E2 & _ & Hq).
  rewrite E2. unfold vcR. destruct (rimb_spec Rr (rho p) (pz p)) as [Z|_]; [exfalso; exact (NR _ Z)|]. unfold r, rax. destruct (axisb_spec Rr (rho p)) as [Z|Z].
  - destruct (axis_val g Rr (pz p) hR) as (V1 & V2 & _). rewrite V1, V2. reflexivity.
  - cbn [fst snd]. unfold Cz. rewrite <- (Hq ltac:(unfold regb, rzp; cbn [fst snd]; destruct (axisb_spec Rr (rho p)); [contradiction|]; destruct (rimb_spec Rr (rho p) (pz p)) as [Z'|_]; [exfalso; exact (NR _ Z')|reflexivity]) NE). reflexivity.
Qed.
Lemma ring_off g Rr p : 0 < Rr -> off_surface Rr p -> let r := rax Rr (rho p) in
  ring_u (N := XN) (Fin g) (Fin Rr) (Fin 0) (xv p) = xv (Wr g Rr r (pz p) * cos (azim p), Wr g Rr r (pz p) * sin (azim p), Wz g Rr r (pz p)).
Proof.
  intros hR HO r. destruct (off_surface_facts Rr p hR HO) as (_ & NR & NE & _). destruct p as [[x y] z]. 
  unfold ring_u, r, rax, rho, pz, px, py in *. cbn [fst snd] in *. 
  assert (E : ring_u_pol (N := XN) (Fin g) (Fin Rr) (Fin 0) (xv (x, y, z)) = F2 (Wr g Rr (if axisb Rr (sqrt (x * x + y * y)) then 0 else sqrt (x * x + y * y)) z, Wz g Rr (if axisb Rr (sqrt (x * x + y * y)) then 0 else sqrt (x * x + y * y)) z)).
  { change (xv (x, y, z)) with ((Fin x : XN), (Fin y : XN), (Fin z : XN)). destruct (axisb_spec Rr (sqrt (x * x + y * y))) as [Z|Z].
    - rewrite pol_axis by auto. destruct (W_axis g Rr z hR) as [-> ->]. reflexivity.
    - rewrite pol_reg; auto. }
  rewrite E. rewrite cart2_X. reflexivity.
Qed.
(** the code with an exact third-kind integral is the Biot-Savart integral over the sheet *)
Theorem C54_is_biot_savart : forall PIb, third PIb exact3 -> forall g Rr (pts : list R3) i p, 0 < Rr -> nth_error pts i = Some p ->
  px p = 0 /\ py p = 0 \/ 1 / 10000000 * Rr <= rho p -> off_sheet Rr 0 p -> ~ rim_zone Rr (rho p) (pz p) ->
  exists u, nth_error (vc_tang_u_gen (N := XN) PIb (Fin g) (Fin Rr) (Fin 0) (map xv pts)) i = Some (xv u) /\ sheet_velocity g Rr 0 p u.
Proof.
  intros PIb HT g Rr pts i p hR Hi HA HO NR. destruct (vcu_at PIb exact3 g Rr pts i p HT hR Hi) as (q & _ & E2 & _ & Hq). rewrite E2. eexists. split; [reflexivity|].
  destruct (azim_polar p) as [P1 P2]. assert (EP : p = (rho p * cos (azim p), rho p * sin (azim p), pz p)) by (destruct p as [[x y] z]; unfold px, py, pz in *; cbn [fst snd] in *; congruence).
  pose proof (rho_ge p) as hr. assert (SH := straight_sheet g Rr (rho p) (azim p) (pz p) hr hR). rewrite <- EP in SH. specialize (SH HO).
  unfold vcR. destruct (rimb_spec Rr (rho p) (pz p)) as [Z|_]; [contradiction|]. destruct (axisb_spec Rr (rho p)) as [Z|Z]; cbn [fst snd].
  - destruct HA as [[A1 A2]|A]; [|unfold axis_zone in Z; lra]. assert (ER : rho p = 0) by (unfold rho; rewrite A1, A2, Rmult_0_l, Rplus_0_l; apply sqrt_0). rewrite ER in SH.
    destruct (axis_val g Rr (pz p) hR) as (V1 & V2 & _). rewrite V1, V2 in SH. exact SH.
  - destruct (Req_dec (rho p) Rr) as [E|E].
    + assert (EC : CzP g Rr (rho p) (pz p) q = Cz g Rr (rho p) (pz p)) by (unfold Cz, CzP; destruct (Req_EM_T (rho p) Rr); [reflexivity|contradiction]). rewrite EC. exact SH.
    + unfold Cz in SH. rewrite <- (Hq ltac:(unfold regb, rzp; cbn [fst snd]; destruct (axisb_spec Rr (rho p)); [contradiction|]; destruct (rimb_spec Rr (rho p) (pz p)) as [Z'|_]; [contradiction|reflexivity]) E) in SH. exact SH.
Qed.
Lemma up_rho h p : rho (up h p) = rho p /\ azim (up h p) = azim p /\ pz (up h p) = pz p - h.
Proof. repeat split. Qed.
Lemma nth_map {A B} (f : A -> B) l i a : nth_error l i = Some a -> nth_error (map f l) i = Some (f a).
Proof. intros H. rewrite nth_error_map, H. reflexivity. Qed.
(** moving the cylinder's origin to height h: the field changes, per unit length, by minus the field of the ring at h;
    and over a whole length by the field of all the rings in between *)
Theorem C54_stack_of_rings : forall PIb, third PIb exact3 -> forall g Rr (pts : list R3) i p, 0 < Rr -> nth_error pts i = Some p -> off_surface Rr p ->
  exists U W : R -> R3, 
    (forall h, nth_error (vc_tang_u_gen (N := XN) PIb (Fin g) (Fin Rr) (Fin 0) (map xv (map (up h) pts))) i = Some (xv (U h))) /\
    (forall h, ring_u (N := XN) (Fin g) (Fin Rr) (Fin 0) (xv (up h p)) = xv (W h)) /\
    each3 (fun c => (forall h, is_derive (fun s => c (U s)) h (- c (W h))) /\
                    (forall z1 z2, is_RInt (fun h => c (W h)) z1 z2 (c (U z1) - c (U z2)))).
Proof.
  intros PIb HT g Rr pts i p hR Hi HO. destruct (off_surface_facts Rr p hR HO) as (_ & _ & _ & hr & NE). set (r := rax Rr (rho p)) in *.
  exists (fun h => (Cr g Rr r (pz p - h) * cos (azim p), Cr g Rr r (pz p - h) * sin (azim p), Cz g Rr r (pz p - h))),
         (fun h => (Wr g Rr r (pz p - h) * cos (azim p), Wr g Rr r (pz p - h) * sin (azim p), Wz g Rr r (pz p - h))).
  split; [|split].
  - intros h. exact (vc_off PIb g Rr (map (up h) pts) i (up h p) HT hR (nth_map _ _ _ _ Hi) HO).
  - intros h. exact (ring_off g Rr (up h p) hR HO).
  - assert (off : forall z, 0 < (r - Rr) * (r - Rr) + z * z) by (intros z; pose proof (Rsq_lt (r - Rr) ltac:(lra)); pose proof (Rsq_pos z); lra).
    assert (DR : forall a h, is_derive (fun s => Cr g Rr r (pz p - s) * a) h (- (Wr g Rr r (pz p - h) * a))).
    { intros a h. pose proof (Cr_deriv g Rr r (pz p - h) hr hR (off _)) as D. 
      assert (D2 : is_derive (fun s => Cr g Rr r (pz p - s)) h (scal (-1) (Wr g Rr r (pz p - h)))).
      { apply (is_derive_comp (Cr g Rr r) (fun s => pz p - s)); [exact D|]. auto_derive; auto; ring. }
      apply (is_derive_ext (fun s => scal a (Cr g Rr r (pz p - s)))). { intros; rsc. ring. }
      replace (- (Wr g Rr r (pz p - h) * a)) with (scal a (scal (-1) (Wr g Rr r (pz p - h)))) by (rsc; ring). apply (is_derive_scal _ _ a). exact D2. }
    assert (DZ : forall h, is_derive (fun s => Cz g Rr r (pz p - s)) h (- Wz g Rr r (pz p - h))).
    { intros h. pose proof (Cz_deriv g Rr r (pz p - h) hr hR (or_introl NE)) as D. 
      replace (- Wz g Rr r (pz p - h)) with (scal (-1) (Wz g Rr r (pz p - h))) by (rsc; ring).
      apply (is_derive_comp (Cz g Rr r) (fun s => pz p - s)); [exact D|]. auto_derive; auto; ring. }
    assert (CP : forall h, continuous (fun s : R => pz p - s) h) by (intros; apply (ex_derive_continuous (fun s : R => pz p - s)); auto_derive; auto).
    assert (CR : forall a h, continuous (fun s => Wr g Rr r (pz p - s) * a) h).
    { intros a h. apply (continuous_mult (fun s => Wr g Rr r (pz p - s)) (fun _ => a)); [|apply continuous_const].
      apply (continuous_comp (fun s => pz p - s) (Wr g Rr r)); auto. apply Wr_cont; auto. }
    assert (CZ : forall h, continuous (fun s => Wz g Rr r (pz p - s)) h).
    { intros h. apply (continuous_comp (fun s => pz p - s) (Wz g Rr r)); auto. apply Wz_cont; auto. }
    assert (FTC : forall F G : R -> R, (forall h, is_derive F h (- G h)) -> (forall h, continuous G h) -> forall z1 z2, is_RInt G z1 z2 (F z1 - F z2)).
    { intros F G HD HC z1 z2. assert (K := is_RInt_derive F (fun h => - G h) z1 z2 (fun h _ => HD h) (fun h _ => continuous_opp _ _ (HC h))).
      apply (is_RInt_scal _ _ _ (-1)) in K. replace (F z1 - F z2) with (scal (-1) (minus (F z2) (F z1))) by (unfold minus; rsc; change plus with Rplus; change opp with Ropp; ring).
      eapply is_RInt_ext; [|exact K]. intros t _. cbn beta. rsc. ring. }
    split; [|split]; unfold px, py, pz at 1; cbn [fst snd]; (split; [auto|]); intros z1 z2.
    + exact (FTC (fun s => Cr g Rr r (pz p - s) * cos (azim p)) (fun s => Wr g Rr r (pz p - s) * cos (azim p)) (DR _) (CR _) z1 z2).
    + exact (FTC (fun s => Cr g Rr r (pz p - s) * sin (azim p)) (fun s => Wr g Rr r (pz p - s) * sin (azim p)) (DR _) (CR _) z1 z2).
    + exact (FTC (fun s => Cz g Rr r (pz p - s)) (fun s => Wz g Rr r (pz p - s)) DZ CZ z1 z2).
Qed.

(** the hypothesis is met: exact evaluation of the integral at every entry *)
Definition PIexact (l : list (X * X)) : list X := map (fun q => Fin (Piell (toR (fst q)) (toR (snd q)))) l.
Example C54_exact_exists : third PIexact exact3.
Proof.
  intros l _. unfold PIexact. rewrite map_map. induction l as [|[n m] l IH]; constructor; auto. intros _. eexists. split; [reflexivity|]. reflexivity.
Qed.
Example C54_case : off_surface 1 (1/2, 0, 3) /\ off_surface 1 (0, 0, 2) /\ off_sheet 1 0 (1/2, 0, 3).
Proof.
  assert (E1 : rho (1/2, 0, 3) = 1/2) by (unfold rho, px, py; cbn [fst snd]; replace (1/2 * (1/2) + 0 * 0) with (1/2 * (1/2)) by ring; apply sqrt_square; lra).
  assert (E2 : rho (0, 0, 2) = 0) by (unfold rho, px, py; cbn [fst snd]; rewrite Rmult_0_l, Rplus_0_l; apply sqrt_0).
  unfold off_surface. rewrite E1, E2. repeat split; [rewrite Rabs_left by lra; lra|rewrite Rabs_left by lra; lra|].
  pose proof (straight_off_sheet (1/2) 1 0 3 ltac:(lra) ltac:(lra) ltac:(left; lra)) as H. rewrite cos_0, sin_0, Rmult_1_r, Rmult_0_r in H. exact H.
Qed.
