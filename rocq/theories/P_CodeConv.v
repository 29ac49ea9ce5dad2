(** * C97: what an error of the third-kind routine does to the cylinder velocities; the code's own Carlson iteration
    (C43) therefore gives velocities that converge to the Biot-Savart integral *)
From Coquelicot Require Import Coquelicot.
From Coq Require Import ZArith List Bool Arith Lia String Reals Lra Psatz.
From Verif Require Import Num NumR NumX M_Elliptic M_Line M_Cylinder M_Ring M_Doublet M_Skewed L_List L_X L_Angles L_Built Spec SpecBS L_Calc L_Ell L_Cyl L_Carlson P_Line P_Ring P_Doublet P_Skewed P_Cylinder P_Cylinder2 P_Cylinder3 P_Longi P_Elliptic P_Converge.
Import ListNotations.
Local Open Scope R_scope.
Local Notation len := List.length.

(** a routine for lists of pairs (n,m), n < 1, that returns numbers, and whose answer for the pair [(n0,m0)] is, wherever
    in the list and in whatever company, within [d] of the complete elliptic integral of the third kind *)
Definition third_within (PIb : list (X * X) -> list X) (n0 m0 d : R) : Prop :=
  forall l : list (R * R), Forall (fun p => snd p <= 1) l ->
    Forall2 (fun p v => fst p < 1 -> exists q, v = Fin q /\ (p = (n0, m0) -> Rabs (q - Piell n0 m0) <= d)) l (PIb (map F2 l)).

Definition near3 (n0 m0 d n m q : R) : Prop := n = n0 -> m = m0 -> Rabs (q - Piell n m) <= d.
Lemma tw_third1 PIb n0 m0 d : third_within PIb n0 m0 d -> third1 PIb (near3 n0 m0 d).
Proof.
  intros H l Hl. eapply Forall2_impl; [|apply H; exact Hl]. intros [n m] v Hv Hn. destruct (Hv Hn) as (q & E & K). exists q. split; auto. intros E1 E2. cbn [fst snd] in *. subst. auto.
Qed.
Lemma tw_third PIb n0 m0 d : third_within PIb n0 m0 d -> third PIb (near3 n0 m0 d).
Proof. intros H l Hl. apply (tw_third1 _ _ _ _ H). eapply Forall_impl; [|exact Hl]. cbn. intros; lra. Qed.
Lemma px3 a b c : px (a, b, c) = a. Proof. reflexivity. Qed.
Lemma py3 a b c : py (a, b, c) = b. Proof. reflexivity. Qed.
Lemma pz3 a b c : pz (a, b, c) = c. Proof. reflexivity. Qed.

Lemma coef_le Rr r z : 0 <= r -> 0 < Rr -> Rabs (z / (PI * sqrt (a2 r Rr z)) * ((Rr - r) / (Rr + r))) <= / PI.
Proof.
  intros hr hR. pose proof PI_RGT_0 as HP. pose proof (Rsq_pos z).
  assert (A0 : 0 < a2 r Rr z) by (unfold a2; assert (0 < (r + Rr) * (r + Rr)) by (apply Rmult_lt_0_compat; lra); lra).
  assert (SA : 0 < sqrt (a2 r Rr z)) by (apply sqrt_lt_R0; auto).
  rewrite Rabs_mult. unfold Rdiv at 1. rewrite Rabs_mult. rewrite Rabs_inv. rewrite (Rabs_right (PI * _)) by (apply Rle_ge, Rlt_le, Rmult_lt_0_compat; auto).
  assert (Z : Rabs z <= sqrt (a2 r Rr z)).
  { rewrite <- sqrt_Rsqr_abs. apply sqrt_le_1; unfold Rsqr; [lra|lra|]. unfold a2. pose proof (Rsq_pos (r + Rr)). lra. }
  assert (Q : Rabs ((Rr - r) / (Rr + r)) <= 1).
  { unfold Rdiv. rewrite Rabs_mult, Rabs_inv, (Rabs_right (Rr + r)) by lra. apply Rmult_le_reg_r with (Rr + r); [lra|].
    rewrite Rmult_assoc, Rinv_l by lra. rewrite Rmult_1_r, Rmult_1_l. apply Rabs_le. lra. }
  assert (W : Rabs z * / (PI * sqrt (a2 r Rr z)) <= / PI).
  { apply Rmult_le_reg_r with (PI * sqrt (a2 r Rr z)); [apply Rmult_lt_0_compat; auto|].
    replace (Rabs z * / (PI * sqrt (a2 r Rr z)) * (PI * sqrt (a2 r Rr z))) with (Rabs z) by (field; lra).
    replace (/ PI * (PI * sqrt (a2 r Rr z))) with (sqrt (a2 r Rr z)) by (field; lra). auto. }
  assert (0 <= Rabs z * / (PI * sqrt (a2 r Rr z))) by (apply Rmult_le_pos; [apply Rabs_pos|apply Rlt_le, Rinv_0_lt_compat, Rmult_lt_0_compat; auto]).
  replace (/ PI) with (/ PI * 1) by ring. apply Rmult_le_compat; auto. apply Rabs_pos.
Qed.

(** tangential vorticity: only the axial velocity is affected, by at most |gamma_t|/(2 pi) times the error *)
Theorem C97_tangential_error : forall PIb g Rr d (pts : list R3) i p, 0 < Rr -> nth_error pts i = Some p ->
  let r := sqrt (px p * px p + py p * py p) in
  third_within PIb (4 * r * Rr / ((r + Rr) * (r + Rr))) (4 * r * Rr / ((r + Rr) * (r + Rr) + pz p * pz p)) d ->
  px p = 0 /\ py p = 0 \/ 1 / 10000000 * Rr <= r -> off_sheet Rr 0 p -> ~ rim_zone Rr r (pz p) ->
  exists u v, sheet_velocity g Rr 0 p u /\
    nth_error (vc_tang_u_gen (N := XN) PIb (Fin g) (Fin Rr) (Fin 0) (map xv pts)) i = Some (xv v) /\
    px v = px u /\ py v = py u /\
    (r = 0 \/ r = Rr -> pz v = pz u) /\
    (r <> 0 -> r <> Rr -> Rabs (pz v - pz u) <= Rabs g / (2 * PI) * d).
Proof.
  intros PIb g Rr d pts i p hR Hi. cbv zeta. fold (rho p). fold (a2 (rho p) Rr (pz p)). fold (nn (rho p) Rr). fold (mm (rho p) Rr (pz p)). intros HT HA HO NR.
  destruct (C54_is_biot_savart PIexact C54_exact_exists g Rr pts i p hR Hi HA HO NR) as (u & Eu & SU).
  destruct (vcu_at PIexact exact3 g Rr pts i p C54_exact_exists hR Hi) as (q0 & _ & E0 & _ & H0). rewrite Eu in E0. clear Eu.
  assert (EU : u = (fst (vcR g Rr (rho p) (pz p) q0) * cos (azim p), fst (vcR g Rr (rho p) (pz p) q0) * sin (azim p), snd (vcR g Rr (rho p) (pz p) q0))).
  { apply xv_inj. congruence. } clear E0.
  destruct (vcu_at PIb (near3 _ _ d) g Rr pts i p (tw_third _ _ _ _ HT) hR Hi) as (q & _ & E2 & _ & Hq).
  exists u. eexists. split; [exact SU|]. split; [exact E2|]. rewrite EU. rewrite !px3, !py3, !pz3.
  pose proof (rho_ge p) as hr. unfold vcR. destruct (rimb_spec Rr (rho p) (pz p)) as [Z|NZ]; [contradiction|].
  destruct (axisb_spec Rr (rho p)) as [Z|Z]; cbn [fst snd].
  - split; [reflexivity|]. split; [reflexivity|]. split; [reflexivity|]. intros N0 _. exfalso. destruct HA as [[A1 A2]|A]; [|unfold axis_zone in Z; lra].
    apply N0. unfold rho. rewrite A1, A2, Rmult_0_l, Rplus_0_l. apply sqrt_0.
  - split; [reflexivity|]. split; [reflexivity|]. 
    assert (RB : regb Rr (rzp p) = true) by (unfold regb, rzp; cbn [fst snd]; destruct (axisb_spec Rr (rho p)); [contradiction|]; destruct (rimb_spec Rr (rho p) (pz p)); [contradiction|reflexivity]).
    split.
    + intros [E|E].
      * exfalso. unfold axis_zone in Z. rewrite E in Z. lra.
      * unfold CzP. destruct (Req_EM_T (rho p) Rr); [reflexivity|contradiction].
    + intros _ N. pose proof (H0 RB N) as Q0. unfold exact3 in Q0. specialize (Hq RB N). unfold near3 in Hq.
      assert (hr' : 0 < rho p) by (unfold axis_zone in Z; apply Rnot_lt_le in Z; assert (0 < 1 / 10000000 * Rr) by lra; lra).
      assert (M1 : mm (rho p) Rr (pz p) < 1) by (apply mm_lt; auto; pose proof (Rsq_lt (rho p - Rr) ltac:(lra)); pose proof (Rsq_pos (pz p)); lra).
      specialize (Hq eq_refl eq_refl). rewrite <- Q0 in Hq.
      unfold CzP. destruct (Req_EM_T (rho p) Rr); [contradiction|].
      set (S := if Rlt_dec (rho p) Rr then 1 else 0). set (K := Kell (mm (rho p) Rr (pz p))). 
      assert (A0 : 0 < a2 (rho p) Rr (pz p)) by (unfold a2; pose proof (Rsq_pos (pz p)); assert (0 < (rho p + Rr) * (rho p + Rr)) by (apply Rmult_lt_0_compat; lra); lra).
      assert (SA : 0 < sqrt (a2 (rho p) Rr (pz p))) by (apply sqrt_lt_R0; auto). pose proof PI_RGT_0.
      pose proof (coef_le Rr (rho p) (pz p) hr hR) as CL. set (c := pz p / (PI * sqrt (a2 (rho p) Rr (pz p))) * ((Rr - rho p) / (Rr + rho p))) in *.
      match goal with |- Rabs ?x <= _ => replace x with (g / 2 * (c * (q - q0))) by (unfold c; field; lra) end.
      rewrite !Rabs_mult. unfold Rdiv at 1. rewrite Rabs_mult, (Rabs_right (/ 2)) by lra.
      replace (Rabs g / (2 * PI) * d) with (Rabs g * / 2 * (/ PI * d)) by (field; lra).
      apply Rmult_le_compat_l; [pose proof (Rabs_pos g); lra|]. apply Rmult_le_compat; auto using Rabs_pos.
Qed.

(** longitudinal vorticity: the error of the azimuthal velocity is at most |gamma_l| R/(2 pi r) times that of the routine *)
Theorem C97_longitudinal_error : forall PIb g Rr d (pts : list R3) i p, 0 < Rr -> nth_error pts i = Some p ->
  let r := sqrt (px p * px p + py p * py p) in
  third_within PIb (4 * r * Rr / ((r + Rr) * (r + Rr))) (4 * r * Rr / ((r + Rr) * (r + Rr) + pz p * pz p)) d -> r <> 0 -> r <> Rr ->
  exists u v, longi_sheet_velocity g Rr p u /\
    nth_error (vc_longi_u_gen (N := XN) PIb (Fin g) (Fin Rr) false (map xv pts)) i = Some (xv v) /\
    pz v = pz u /\
    Rabs (px v - px u) <= Rabs g * Rr / (2 * PI * r) * d /\
    Rabs (py v - py u) <= Rabs g * Rr / (2 * PI * r) * d.
Proof.
  intros PIb g Rr d pts i p hR Hi. cbv zeta. fold (rho p). fold (a2 (rho p) Rr (pz p)). fold (nn (rho p) Rr). fold (mm (rho p) Rr (pz p)). intros HT N0 N. pose proof (rho_ge p) as hr. assert (hr' : 0 < rho p) by lra. pose proof PI_RGT_0.
  assert (N1 : nn (rho p) Rr < 1) by (apply nn_lt; auto; lra).
  assert (M1 : mm (rho p) Rr (pz p) < 1) by (apply mm_lt; auto; pose proof (Rsq_lt (rho p - Rr) ltac:(lra)); pose proof (Rsq_pos (pz p)); lra).
  destruct (longi_at PIb (near3 _ _ d) g Rr pts i p (tw_third1 _ _ _ _ HT) hR Hi) as (v & Ev & Hv). specialize (Ev false). destruct (Hv N1) as (q & -> & Hq). specialize (Hq eq_refl eq_refl). clear Hv.
  cbv zeta in Ev. rewrite longi_upsi_X in Ev by auto.
  exists (- Cl g Rr (rho p) (pz p) * sin (azim p), Cl g Rr (rho p) (pz p) * cos (azim p), 0).
  exists (- ClP g Rr (rho p) (pz p) q * sin (azim p), ClP g Rr (rho p) (pz p) q * cos (azim p), 0).
  destruct (azim_polar p) as [P1 P2]. assert (EP : p = (rho p * cos (azim p), rho p * sin (azim p), pz p)) by (destruct p as [[x y] z]; unfold px, py, pz in *; cbn [fst snd] in *; congruence).
  split. { rewrite EP at 1. apply longi_sheet; auto. }
  split. { rewrite Ev. reflexivity. }
  rewrite !px3, !py3, !pz3. split; [reflexivity|].
  set (D := d) in *.
  assert (A0 : 0 < a2 (rho p) Rr (pz p)) by (unfold a2; pose proof (Rsq_pos (pz p)); assert (0 < (rho p + Rr) * (rho p + Rr)) by (apply Rmult_lt_0_compat; lra); lra).
  assert (SA : 0 < sqrt (a2 (rho p) Rr (pz p))) by (apply sqrt_lt_R0; auto).
  assert (EE : Rabs (ClP g Rr (rho p) (pz p) q - Cl g Rr (rho p) (pz p)) <= Rabs g * Rr / (2 * PI * rho p) * D).
  { unfold Cl, ClP. set (S := if Rlt_dec (rho p) Rr then 0 else 1). set (K := Kell (mm (rho p) Rr (pz p))). set (q0 := Piell (nn (rho p) Rr) (mm (rho p) Rr (pz p))) in *.
    pose proof (coef_le Rr (rho p) (pz p) hr hR) as CL. set (c := pz p / (PI * sqrt (a2 (rho p) Rr (pz p))) * ((Rr - rho p) / (Rr + rho p))) in *.
    match goal with |- Rabs ?x <= _ => replace x with (- (g * (Rr / (2 * rho p)) * (c * (q - q0)))) by (unfold c; field; lra) end.
    rewrite Rabs_Ropp. rewrite !Rabs_mult. rewrite (Rabs_right (Rr / (2 * rho p))) by (apply Rle_ge, Rlt_le, Rdiv_lt_0_compat; lra).
    replace (Rabs g * Rr / (2 * PI * rho p) * D) with (Rabs g * (Rr / (2 * rho p)) * (/ PI * D)) by (field; lra).
    apply Rmult_le_compat_l; [apply Rmult_le_pos; [apply Rabs_pos|apply Rlt_le, Rdiv_lt_0_compat; lra]|]. apply Rmult_le_compat; auto using Rabs_pos. }
  assert (0 <= Rabs g * Rr / (2 * PI * rho p) * D) by (eapply Rle_trans; [apply Rabs_pos|exact EE]).
  set (a := ClP g Rr (rho p) (pz p) q) in *. set (b := Cl g Rr (rho p) (pz p)) in *. clearbody a b.
  split.
  - replace (- a * sin (azim p) - - b * sin (azim p)) with (- ((a - b) * sin (azim p))) by ring. rewrite Rabs_Ropp, Rabs_mult.
    assert (S1 : Rabs (sin (azim p)) <= 1) by (apply Rabs_le; pose proof (SIN_bound (azim p)); lra). pose proof (Rabs_pos (a - b)). pose proof (Rabs_pos (sin (azim p))). nra.
  - replace (a * cos (azim p) - b * cos (azim p)) with ((a - b) * cos (azim p)) by ring. rewrite Rabs_mult.
    assert (S1 : Rabs (cos (azim p)) <= 1) by (apply Rabs_le; pose proof (COS_bound (azim p)); lra). pose proof (Rabs_pos (a - b)). pose proof (Rabs_pos (cos (azim p))). nra.
Qed.

(** the code's own Carlson routine after N iterations of its loops (the stopping test switched off, see C80 for what it does) *)
Lemma code_within n m : n < 1 -> m < 1 -> exists B, forall (tol : R) (N : nat), tol < 0 -> (2 <= N)%nat -> third_within (Pi_tol (N := XN) (Fin tol) N) n m (B / 4 ^ N).
Proof.
  intros hn hm. destruct (C43_converges n m hn hm) as [B HB]. exists B. intros tol N ht hN l Hl.
  destruct N as [|[|k]]; try lia. pose proof (Pi_full tol (S k) l ht Hl) as HP.
  assert (K : forall i v, nth_error l i = Some (n, m) -> nth_error (Pi_tol (N := XN) (Fin tol) (S (S k)) (map F2 l)) i = Some (Fin v) -> Rabs (v - Piell n m) <= B / 4 ^ S (S k)).
  { intros i v Hi Hv. destruct (HB tol (S (S k)) l i ht ltac:(lia) Hl Hi) as (v' & E1 & E2). rewrite E1 in Hv. injection Hv as <-. exact E2. }
  revert HP K. generalize (Pi_tol (N := XN) (Fin tol) (S (S k)) (map F2 l)). clear. intros vs HP. induction HP as [|[n' m'] v l vs H HP IH]; intros K; constructor.
  - cbn [fst snd] in *. intros Hn. specialize (H Hn). eexists. split; [exact H|]. intros E. injection E as -> ->. apply (K 0%nat); [reflexivity|]. rewrite H. reflexivity.
  - apply IH. intros i w Hi Hw. apply (K (S i)); assumption.
Qed.

Lemma code_any n m : ~ n < 1 -> forall (tol : R) (N : nat), tol < 0 -> (2 <= N)%nat -> third_within (Pi_tol (N := XN) (Fin tol) N) n m 0.
Proof.
  intros hn tol N ht hN l Hl. destruct N as [|[|k]]; try lia. pose proof (Pi_full tol (S k) l ht Hl) as HP.
  eapply Forall2_impl; [|exact HP]. intros [n' m'] v H Hn. cbn [fst snd] in *. eexists. split; [exact (H Hn)|]. intros E. injection E as -> ->. contradiction.
Qed.
Lemma pow4_ge1 N : 0 < 4 ^ N. Proof. apply pow_lt. lra. Qed.

Theorem C97_tangential_converges : forall g Rr p, 0 < Rr -> let r := sqrt (px p * px p + py p * py p) in
  px p = 0 /\ py p = 0 \/ 1 / 10000000 * Rr <= r -> off_sheet Rr 0 p -> ~ rim_zone Rr r (pz p) ->
  exists B u, sheet_velocity g Rr 0 p u /\ forall (tol : R) (N : nat) (pts : list R3) i, tol < 0 -> (2 <= N)%nat -> nth_error pts i = Some p ->
    exists v, nth_error (vc_tang_u_gen (N := XN) (Pi_tol (N := XN) (Fin tol) N) (Fin g) (Fin Rr) (Fin 0) (map xv pts)) i = Some (xv v) /\
      px v = px u /\ py v = py u /\ Rabs (pz v - pz u) <= B / 4 ^ N.
Proof.
  intros g Rr p hR. cbv zeta. intros HA HO NR. set (r := sqrt (px p * px p + py p * py p)) in *. pose proof PI_RGT_0.
  assert (hr : 0 <= r) by apply sqrt_pos.
  destruct (C54_is_biot_savart PIexact C54_exact_exists g Rr [p] 0 p hR eq_refl HA HO NR) as (u & _ & SU).
  destruct (Rlt_dec (4 * r * Rr / ((r + Rr) * (r + Rr))) 1) as [N1|N1].
  - assert (M1 : 4 * r * Rr / ((r + Rr) * (r + Rr) + pz p * pz p) < 1).
    { pose proof (Rsq_pos (pz p)). assert (Q : 0 < (r + Rr) * (r + Rr)) by (apply Rmult_lt_0_compat; lra).
      eapply Rle_lt_trans; [|exact N1]. unfold Rdiv. apply Rmult_le_compat_l; [apply Rmult_le_pos; lra|]. apply Rinv_le_contravar; lra. }
    destruct (code_within _ _ N1 M1) as [B HB]. exists (Rabs g / (2 * PI) * B), u. split; [exact SU|]. intros tol N pts i ht hN Hi.
    destruct (C97_tangential_error _ g Rr _ pts i p hR Hi (HB tol N ht hN) HA HO NR) as (u' & v & SU' & Ev & V1 & V2 & V3 & V4). fold r in V3, V4.
    assert (u' = u) by (eapply sheet_unique; eauto). subst u'. exists v. split; [exact Ev|]. split; [exact V1|]. split; [exact V2|].
    destruct (Req_dec r 0) as [R0|R0].
    { rewrite V3 by auto. rewrite Rminus_eq_0, Rabs_R0. assert (0 <= B / 4 ^ N).
      { pose proof (HB tol N ht hN [(4 * r * Rr / ((r + Rr) * (r + Rr)), 4 * r * Rr / ((r + Rr) * (r + Rr) + pz p * pz p))] ltac:(constructor; [cbn; lra|constructor])) as F.
        inversion F as [|a b c d H0 H1]; subst. destruct (H0 N1) as (q & _ & Hq). eapply Rle_trans; [apply Rabs_pos|apply Hq; reflexivity]. }
      unfold Rdiv at 1. rewrite Rmult_assoc. apply Rmult_le_pos; [|exact H0]. apply Rmult_le_pos; [apply Rabs_pos|apply Rlt_le, Rinv_0_lt_compat; lra]. }
    destruct (Req_dec r Rr) as [RR|RR].
    { exfalso. rewrite RR in N1. apply (Rlt_irrefl 1). eapply Rle_lt_trans; [|exact N1]. apply Req_le. field. lra. }
    replace (Rabs g / (2 * PI) * B / 4 ^ N) with (Rabs g / (2 * PI) * (B / 4 ^ N)) by (unfold Rdiv; ring). apply V4; auto.
  - assert (RR : r = Rr).
    { destruct (Req_dec r Rr) as [E|E]; auto. exfalso. apply N1. assert (Q : 0 < (r + Rr) * (r + Rr)) by (apply Rmult_lt_0_compat; lra).
      apply Rmult_lt_reg_r with ((r + Rr) * (r + Rr)); auto. unfold Rdiv. rewrite Rmult_assoc, Rinv_l by lra. pose proof (Rsq_lt (r - Rr) ltac:(lra)). lra. }
    exists 0, u. split; [exact SU|]. intros tol N pts i ht hN Hi.
    destruct (C97_tangential_error _ g Rr 0 pts i p hR Hi (code_any _ _ N1 tol N ht hN) HA HO NR) as (u' & v & SU' & Ev & V1 & V2 & V3 & V4). fold r in V3, V4.
    assert (u' = u) by (eapply sheet_unique; eauto). subst u'. exists v. split; [exact Ev|]. split; [exact V1|]. split; [exact V2|].
    rewrite V3 by auto. rewrite Rminus_eq_0, Rabs_R0. unfold Rdiv. rewrite Rmult_0_l. lra.
Qed.
Lemma longi_sheet_unique g Rr x u v : longi_sheet_velocity g Rr x u -> longi_sheet_velocity g Rr x v -> u = v.
Proof.
  intros (F & HF & IF) (G & HG & IG). apply (each3_RInt_unique F G 0 (2 * PI)); auto. intros t. eapply half_line_unique; [apply HF|apply HG].
Qed.
Theorem C97_longitudinal_converges : forall g Rr p, 0 < Rr -> let r := sqrt (px p * px p + py p * py p) in r <> 0 -> r <> Rr ->
  exists B u, longi_sheet_velocity g Rr p u /\ forall (tol : R) (N : nat) (pts : list R3) i, tol < 0 -> (2 <= N)%nat -> nth_error pts i = Some p ->
    exists v, nth_error (vc_longi_u_gen (N := XN) (Pi_tol (N := XN) (Fin tol) N) (Fin g) (Fin Rr) false (map xv pts)) i = Some (xv v) /\
      Rabs (px v - px u) <= B / 4 ^ N /\ Rabs (py v - py u) <= B / 4 ^ N /\ pz v = pz u.
Proof.
  intros g Rr p hR. cbv zeta. set (r := sqrt (px p * px p + py p * py p)) in *. intros R0 RR. pose proof PI_RGT_0.
  assert (hr : 0 < r) by (pose proof (sqrt_pos (px p * px p + py p * py p)); unfold r in *; lra).
  assert (N1 : 4 * r * Rr / ((r + Rr) * (r + Rr)) < 1) by (apply nn_lt; auto; lra).
  assert (M1 : 4 * r * Rr / ((r + Rr) * (r + Rr) + pz p * pz p) < 1) by (apply (mm_lt r Rr (pz p)); auto; [|lra]; pose proof (Rsq_lt (r - Rr) ltac:(lra)); pose proof (Rsq_pos (pz p)); lra).
  destruct (code_within _ _ N1 M1) as [B HB].
  destruct (C97_longitudinal_error _ g Rr _ [p] 0 p hR eq_refl (HB (-1) 2%nat ltac:(lra) ltac:(lia)) R0 RR) as (u & _ & SU & _).
  exists (Rabs g * Rr / (2 * PI * r) * B), u. split; [exact SU|]. intros tol N pts i ht hN Hi.
  destruct (C97_longitudinal_error _ g Rr _ pts i p hR Hi (HB tol N ht hN) R0 RR) as (u' & v & SU' & Ev & V1 & V2 & V3). fold r in V2, V3.
  assert (u' = u) by (eapply longi_sheet_unique; eauto). subst u'. exists v.
  replace (Rabs g * Rr / (2 * PI * r) * B / 4 ^ N) with (Rabs g * Rr / (2 * PI * r) * (B / 4 ^ N)) by (unfold Rdiv; ring). auto.
Qed.

(** the code is [vc_tang_u_gen (Pi_tol RES ITMAX)]: the same program with its stopping test *)
Example C97_case : vc_tang_u (N := XN) = vc_tang_u_gen (N := XN) (Pi_tol (N := XN) (RES (N := XN)) ITMAX) /\
  (1 / 10000000 * 2 <= sqrt (3 * 3 + 4 * 4)) /\ sqrt (3 * 3 + 4 * 4) = 5 /\ off_sheet 2 0 (3, 4, 1) /\ ~ rim_zone 2 5 1.
Proof.
  assert (E : sqrt (3 * 3 + 4 * 4) = 5) by (replace (3*3+4*4) with (5*5) by ring; apply sqrt_square; lra).
  split; [reflexivity|]. rewrite E. split; [lra|]. split; [reflexivity|]. split.
  - assert (O := straight_off_sheet 5 2 (azim (3, 4, 1)) 1 ltac:(lra) ltac:(lra) ltac:(left; lra)).
    destruct (azim_polar (3, 4, 1)) as [P1 P2]. assert (ER : rho (3, 4, 1) = 5) by (unfold rho; rewrite px3, py3; exact E). rewrite ER in P1, P2. rewrite px3 in P1. rewrite py3 in P2. rewrite <- P1, <- P2 in O. exact O.
  - unfold rim_zone. rewrite Rabs_right by lra. lra.
Qed.
