(** * C129: the vortex cylinder near its axis *)
From Coquelicot Require Import Coquelicot.
From Coq Require Import ZArith List Bool Arith Lia String Reals Lra Psatz.
From Verif Require Import Num NumR NumX M_Elliptic M_Line M_Cylinder M_Ring M_Doublet L_List L_X L_Angles L_Built Spec SpecBS L_Calc L_Ell L_Cyl P_Line P_Ring P_Doublet P_Skewed P_Cylinder P_Cylinder2 P_Cylinder3 P_RingApprox.
Import ListNotations.
Local Open Scope R_scope.
Local Notation len := List.length.

(** ** The inverse distance *)
Section Inv.
  Variables a q T : R.
  Hypothesis hT : 0 <= T < a.
  Hypothesis hq : Rabs q <= a.
  Definition g0 u := / ww a q u.
  Definition g1 u := (q - u) * / ww a q u ^ 3.
  Definition g2 u := - / ww a q u ^ 3 + 3 * (q - u) ^ 2 * / ww a q u ^ 5.
  Definition g3 u := -9 * (q - u) * / ww a q u ^ 5 + 15 * (q - u) ^ 3 * / ww a q u ^ 7.
  Lemma g_derive u : 0 <= u <= T -> is_derive g0 u (g1 u) /\ is_derive g1 u (g2 u) /\ is_derive g2 u (g3 u).
  Proof using hT hq.
    intros Hu. destruct (ww_ge a q T hT hq u Hu) as (W1 & W2 & W3 & W4). assert (0 < ww a q u) by lra.
    assert (DW : is_derive (ww a q) u ((u - q) / ww a q u)).
    { unfold ww. auto_derive; [lra|]. replace (a * a + u * u + - (2 * u * q)) with (a * a + u * u - 2 * u * q) by ring. fold (ww a q u). field. lra. }
    assert (ex_derive (ww a q) u) by (eexists; exact DW). pose proof (is_derive_unique _ _ _ DW) as DE.
    unfold g0, g1, g2, g3. split; [|split].
    - auto_derive; [split; [auto|split; [|auto]]; apply Rgt_not_eq; repeat apply Rmult_lt_0_compat; lra|]. match goal with |- context [Derive ?f u] => change (Derive f u) with (Derive (ww a q) u) end. rewrite DE. field. lra.
    - auto_derive; [repeat (split; auto); apply Rgt_not_eq; repeat apply Rmult_lt_0_compat; lra|]. match goal with |- context [Derive ?f u] => change (Derive f u) with (Derive (ww a q) u) end. rewrite DE. field. lra.
    - auto_derive; [repeat (split; auto); apply Rgt_not_eq; repeat apply Rmult_lt_0_compat; lra|]. match goal with |- context [Derive ?f u] => change (Derive f u) with (Derive (ww a q) u) end. rewrite DE. field. lra.
  Qed.
  Lemma g_bound u : 0 <= u <= T -> Rabs (g1 u) <= 1 / (a - T) ^ 2 /\ Rabs (g2 u) <= 2 / (a - T) ^ 3 /\ Rabs (g3 u) <= 6 / (a - T) ^ 4.
  Proof using hT hq.
    intros Hu. destruct (ww_ge a q T hT hq u Hu) as (W1 & W2 & W3 & W4). assert (WP : 0 < ww a q u) by lra. set (w := ww a q u) in *. set (s := (q - u) / w).
    assert (ES : q - u = s * w) by (unfold s; field; lra).
    assert (SB : -1 <= s <= 1). { rewrite ES in W3. assert (s * s <= 1). { apply (Rmult_le_reg_r (w * w)); [apply Rmult_lt_0_compat; auto|]. lra. } split; nra. }
    assert (K : forall n c v, Rabs v <= c -> Rabs (v * / w ^ n) <= c / (a - T) ^ n).
    { intros n c v Hv. rewrite Rabs_mult, (Rabs_pos_eq (/ w ^ n)) by (apply Rlt_le, Rinv_0_lt_compat, pow_lt; auto). unfold Rdiv. apply Rmult_le_compat; auto; [apply Rabs_pos|apply Rlt_le, Rinv_0_lt_compat, pow_lt; auto|].
      apply Rinv_le_contravar; [apply pow_lt; lra|apply pow_incr; lra]. }
    unfold g1, g2, g3. fold w. rewrite ES. split; [|split].
    - replace (s * w * / w ^ 3) with (s * / w ^ 2) by (field; lra). apply K. apply Rabs_le. lra.
    - replace (- / w ^ 3 + 3 * (s * w) ^ 2 * / w ^ 5) with ((-1 + 3 * (s * s)) * / w ^ 3) by (field; lra). apply K. apply Rabs_le. nra.
    - replace (-9 * (s * w) * / w ^ 5 + 15 * (s * w) ^ 3 * / w ^ 7) with ((-9 * s + 15 * (s * s * s)) * / w ^ 4) by (field; lra). apply K. apply Rabs_le.
      assert (0 <= 15 * (s * s) + 15 * s + 6) by nra. assert (0 <= 15 * (s * s) - 15 * s + 6) by nra.
      assert (-9 * s + 15 * (s * s * s) - 6 = (s - 1) * (15 * (s * s) + 15 * s + 6)) by ring. assert (-9 * s + 15 * (s * s * s) + 6 = (s + 1) * (15 * (s * s) - 15 * s + 6)) by ring. nra.
  Qed.
  Lemma taylor_g u : 0 <= u <= T ->
    Rabs (g0 u - g0 0) <= 1 / (a - T) ^ 2 * u /\
    Rabs (g0 u - (g0 0 + g1 0 * u)) <= 1 / (a - T) ^ 3 * u ^ 2 /\
    Rabs (g0 u - (g0 0 + g1 0 * u + g2 0 / 2 * u ^ 2)) <= 1 / (a - T) ^ 4 * u ^ 3.
  Proof using hT hq.
    intros Hu. destruct hT as [T0 TA]. assert (P : forall n, 0 < / (a - T) ^ n) by (intros n; apply Rinv_0_lt_compat, pow_lt; lra). unfold Rdiv.
    assert (D := fun v Hv => proj1 (g_derive v Hv)). assert (D1 := fun v Hv => proj1 (proj2 (g_derive v Hv))). assert (D2 := fun v Hv => proj2 (proj2 (g_derive v Hv))).
    assert (B := g_bound). unfold Rdiv in B.
    set (p4 := / (a - T) ^ 2) in *. set (p5 := / (a - T) ^ 3) in *. set (p6 := / (a - T) ^ 4) in *.
    assert (LIN : forall (k c v : R), is_derive (fun w => k + c * w) v c) by (intros; auto_derive; auto; ring).
    assert (QUAD : forall (k c e v : R), is_derive (fun w => k + c * w + e * / 2 * w ^ 2) v (c + e * v)) by (intros; auto_derive; auto; field).
    assert (M1 : forall (c v : R), is_derive (fun w => c * w) v c) by (intros; auto_derive; auto; ring).
    assert (M2 : forall (c v : R), is_derive (fun w => c * w ^ 2) v (2 * c * v)) by (intros; auto_derive; auto; ring).
    assert (M3 : forall (c v : R), is_derive (fun w => c * w ^ 3) v (3 * c * v ^ 2)) by (intros; auto_derive; auto; ring).
    assert (SUB : forall (h k : R -> R) v h' k', is_derive h v h' -> is_derive k v k' -> is_derive (fun w => h w - k w) v (h' - k')) by (intros; apply (is_derive_minus (V := R_NormedModule)); auto).
    assert (E2 : forall v, 0 <= v <= T -> Rabs (g2 v - g2 0) <= 6 * p6 * v).
    { apply (dominated (fun v => g2 v - g2 0) (fun v => 6 * p6 * v) g3 (fun _ => 6 * p6) T); [ring|ring| | |].
      - intros v Hv. replace (g3 v) with (g3 v - 0) by ring. apply SUB; [apply D2; auto|]. apply (is_derive_const (V := R_NormedModule)).
      - intros v Hv. apply M1.
      - intros v Hv. apply B; auto. }
    assert (E1 : forall v, 0 <= v <= T -> Rabs (g1 v - g1 0) <= 2 * p5 * v).
    { apply (dominated (fun v => g1 v - g1 0) (fun v => 2 * p5 * v) g2 (fun _ => 2 * p5) T); [ring|ring| | |].
      - intros v Hv. replace (g2 v) with (g2 v - 0) by ring. apply SUB; [apply D1; auto|]. apply (is_derive_const (V := R_NormedModule)).
      - intros v Hv. apply M1.
      - intros v Hv. apply B; auto. }
    assert (E1' : forall v, 0 <= v <= T -> Rabs (g1 v - (g1 0 + g2 0 * v)) <= 3 * p6 * v ^ 2).
    { apply (dominated (fun v => g1 v - (g1 0 + g2 0 * v)) (fun v => 3 * p6 * v ^ 2) (fun v => g2 v - g2 0) (fun v => 2 * (3 * p6) * v) T); [ring|ring| | |].
      - intros v Hv. apply SUB; [apply D1; auto|]. apply LIN.
      - intros v Hv. apply M2.
      - intros v Hv. replace (2 * (3 * p6) * v) with (6 * p6 * v) by ring. auto. }
    split; [|split].
    - apply (dominated (fun v => g0 v - g0 0) (fun v => 1 * p4 * v) g1 (fun _ => 1 * p4) T); auto; [ring|ring| |].
      + intros v Hv. replace (g1 v) with (g1 v - 0) by ring. apply SUB; [apply D; auto|]. apply (is_derive_const (V := R_NormedModule)).
      + intros v Hv. apply B; auto.
    - apply (dominated (fun v => g0 v - (g0 0 + g1 0 * v)) (fun v => 1 * p5 * v ^ 2) (fun v => g1 v - g1 0) (fun v => 2 * (1 * p5) * v) T); auto; [ring|ring|].
      intros v Hv. replace (2 * (1 * p5) * v) with (2 * p5 * v) by ring. auto.
    - apply (dominated (fun v => g0 v - (g0 0 + g1 0 * v + g2 0 * / 2 * v ^ 2)) (fun v => 1 * p6 * v ^ 3) (fun v => g1 v - (g1 0 + g2 0 * v)) (fun v => 3 * (1 * p6) * v ^ 2) T); auto; [ring|ring|].
      intros v Hv. replace (3 * (1 * p6) * v ^ 2) with (3 * p6 * v ^ 2) by ring. auto.
  Qed.
End Inv.

Section Bounds.
  Variables g Rr r z : R.
  Hypothesis hR : 0 < Rr.
  Hypothesis hr : 0 <= r < Rr.
  Let B := sqrt (Rr * Rr + z * z).
  Lemma B_facts : B * B = Rr * Rr + z * z /\ Rr <= B /\ Rabs z <= B.
  Proof using hR.
    pose proof (Rsq_pos Rr) as R2. pose proof (Rsq_pos z) as Z2. assert (B2 : B * B = Rr * Rr + z * z) by (apply sqrt_sqrt; lra). split; auto.
    split; (apply Rsqr_incr_0_var; [|apply sqrt_pos]); unfold Rsqr; [lra|]. rewrite <- Rabs_mult, Rabs_pos_eq by auto. lra.
  Qed.
  Lemma B_at0 q : ww B q 0 = B.
  Proof using hR. destruct B_facts as (_ & RB & _). unfold ww. replace (B * B + 0 * 0 - 2 * 0 * q) with (B * B) by ring. apply sqrt_square. lra. Qed.
  Lemma dd_ww t : sqrt (dd r Rr z t) = ww B (Rr * cos t) r.
  Proof using hR. unfold ww. f_equal. destruct B_facts as (B2 & _). rewrite B2. unfold dd. ring. Qed.
  Lemma qB t : Rabs (Rr * cos t) <= B.
  Proof using hR hr. destruct B_facts as (_ & RB & _). rewrite Rabs_mult, (Rabs_pos_eq Rr) by lra. pose proof (cosb t). pose proof (Rabs_pos (cos t)). nra. Qed.
  Lemma off' : 0 < (r - Rr) * (r - Rr) + z * z.
  Proof using hr. pose proof (Rsq_pos z). pose proof (Rsq_lt (r - Rr) ltac:(lra)). lra. Qed.
  Lemma Cr_first : Rabs (Cr g Rr r z) <= Rabs g * Rr / 2 * (r / (B - r) ^ 2).
  Proof using hR hr.
    destruct B_facts as (B2 & RB & ZB). pose proof PI_RGT_0 as HP. assert (hB : 0 <= r < B) by lra.
    assert (K : Rabs (JJ r Rr z) <= 2 * PI * (1 / (B - r) ^ 2 * r)).
    { apply (int_err (fun t => cos t * (g0 B (Rr * cos t) r - g0 B (Rr * cos t) 0))).
      - assert (K := is_RInt_minus _ _ _ _ _ _ (JJ_int r Rr z off' (proj1 hr) hR) (is_RInt_scal _ _ _ (/ B) _ int_cos1)).
        match type of K with is_RInt _ _ _ ?v => change v with (JJ r Rr z + - (/ B * 0)) in K end. replace (JJ r Rr z) with (JJ r Rr z + - (/ B * 0)) by ring.
        eapply is_RInt_ext; [|exact K]. intros t _. change (cos t * / sqrt (dd r Rr z t) + - (/ B * cos t) = cos t * (g0 B (Rr * cos t) r - g0 B (Rr * cos t) 0)).
        rewrite dd_ww. unfold g0. rewrite B_at0. ring.
      - intros t. destruct (taylor_g B (Rr * cos t) r hB (qB t) r ltac:(lra)) as (T1 & _ & _). rewrite Rabs_mult. pose proof (cosb t). pose proof (Rabs_pos (cos t)). set (e := g0 B _ r - _) in *. pose proof (Rabs_pos e). nra. }
    unfold Cr. rewrite Rabs_mult, Rabs_Ropp. unfold Rdiv at 1. rewrite !Rabs_mult, (Rabs_pos_eq Rr), (Rabs_pos_eq (/ (4 * PI))) by (try apply Rlt_le, Rinv_0_lt_compat; lra).
    apply Rle_trans with (Rabs g * Rr * / (4 * PI) * (2 * PI * (1 / (B - r) ^ 2 * r))); [|apply Req_le; field; lra].
    apply Rmult_le_compat_l; auto. apply Rmult_le_pos; [apply Rmult_le_pos; [apply Rabs_pos|lra]|apply Rlt_le, Rinv_0_lt_compat; lra].
  Qed.
  Lemma Cr_near : Rabs (Cr g Rr r z - - g / 4 * (r * Rr ^ 2 / B ^ 3)) <= Rabs g * Rr / 2 * (r ^ 3 / (B - r) ^ 4).
  Proof using hR hr.
    destruct B_facts as (B2 & RB & ZB). pose proof PI_RGT_0 as HP. assert (hB : 0 <= r < B) by lra.
    assert (K : Rabs (JJ r Rr z - PI * Rr * r / B ^ 3) <= 2 * PI * (1 / (B - r) ^ 4 * r ^ 3)).
    { apply (int_err (fun t => cos t * (g0 B (Rr * cos t) r - (g0 B (Rr * cos t) 0 + g1 B (Rr * cos t) 0 * r + g2 B (Rr * cos t) 0 / 2 * r ^ 2)))).
      - assert (K := is_RInt_minus _ _ _ _ _ _ (JJ_int r Rr z off' (proj1 hr) hR) (is_RInt_plus _ _ _ _ _ _ (is_RInt_scal _ _ _ (/ B - / B ^ 3 / 2 * r ^ 2) _ int_cos1) (is_RInt_plus _ _ _ _ _ _ (is_RInt_scal _ _ _ (Rr / B ^ 3 * r) _ int_cos2) (is_RInt_scal _ _ _ (3 * Rr ^ 2 / B ^ 5 / 2 * r ^ 2) _ int_cos3)))).
        match type of K with is_RInt _ _ _ ?v => change v with (JJ r Rr z + - ((/ B - / B ^ 3 / 2 * r ^ 2) * 0 + (Rr / B ^ 3 * r * PI + 3 * Rr ^ 2 / B ^ 5 / 2 * r ^ 2 * 0))) in K end.
        replace (JJ r Rr z - PI * Rr * r / B ^ 3) with (JJ r Rr z + - ((/ B - / B ^ 3 / 2 * r ^ 2) * 0 + (Rr / B ^ 3 * r * PI + 3 * Rr ^ 2 / B ^ 5 / 2 * r ^ 2 * 0))) by (unfold Rdiv; ring).
        eapply is_RInt_ext; [|exact K]. intros t _.
        change (cos t * / sqrt (dd r Rr z t) + - ((/ B - / B ^ 3 / 2 * r ^ 2) * cos t + (Rr / B ^ 3 * r * (cos t * cos t) + 3 * Rr ^ 2 / B ^ 5 / 2 * r ^ 2 * (cos t * cos t * cos t))) =
          cos t * (g0 B (Rr * cos t) r - (g0 B (Rr * cos t) 0 + g1 B (Rr * cos t) 0 * r + g2 B (Rr * cos t) 0 / 2 * r ^ 2))).
        rewrite dd_ww. unfold g0, g1, g2. rewrite !B_at0. unfold Rdiv. ring.
      - intros t. destruct (taylor_g B (Rr * cos t) r hB (qB t) r ltac:(lra)) as (_ & _ & T3). rewrite Rabs_mult. pose proof (cosb t). pose proof (Rabs_pos (cos t)). set (e := g0 B _ r - _) in *. pose proof (Rabs_pos e). nra. }
    unfold Cr. replace (- (g * Rr / (4 * PI)) * JJ r Rr z - - g / 4 * (r * Rr ^ 2 / B ^ 3)) with (- (g * Rr / (4 * PI)) * (JJ r Rr z - PI * Rr * r / B ^ 3)) by (field; split; lra).
    rewrite Rabs_mult, Rabs_Ropp. unfold Rdiv at 1. rewrite !Rabs_mult, (Rabs_pos_eq Rr), (Rabs_pos_eq (/ (4 * PI))) by (try apply Rlt_le, Rinv_0_lt_compat; lra).
    apply Rle_trans with (Rabs g * Rr * / (4 * PI) * (2 * PI * (1 / (B - r) ^ 4 * r ^ 3))); [|apply Req_le; field; lra].
    apply Rmult_le_compat_l; auto. apply Rmult_le_pos; [apply Rmult_le_pos; [apply Rabs_pos|lra]|apply Rlt_le, Rinv_0_lt_compat; lra].
  Qed.
  Lemma Cz_near : Rabs (Cz g Rr r z - g / 2 * (1 + z / B)) <= Rabs g * Rr * Rabs z * r ^ 2 / ((Rr - r) * (B - r) ^ 3).
  Proof using hR hr.
    destruct B_facts as (B2 & RB & ZB). pose proof PI_RGT_0 as HP. assert (hB : 0 <= r < B) by lra. set (k := g * Rr / (4 * PI)).
    assert (NE : r <> Rr) by lra.
    pose proof (axial_int g Rr r z (proj1 hr) hR (or_introl NE)) as A1. pose proof (axial_int g Rr r 0 (proj1 hr) hR (or_introl NE)) as A0. fold k in A1, A0.
    assert (C0 : Cz g Rr r 0 = g / 2). { unfold Cz, CzP. destruct (Req_EM_T r Rr); [lra|]. destruct (Rlt_dec r Rr); [|lra]. unfold Rdiv. rewrite !Rmult_0_l. ring. }
    rewrite C0 in A0.
    set (da := fun t => Rr * Rr + r * r - 2 * r * Rr * cos t).
    assert (DA : forall t, 0 < da t /\ (Rr - r * cos t) * (Rr - r * cos t) <= da t /\ (Rr * cos t - r) * (Rr * cos t - r) <= da t /\ (Rr - r) * (Rr - r) <= da t /\ Rr - r <= Rr - r * cos t).
    { intros t. pose proof (COS_bound t) as CB. pose proof (sin2_cos2 t) as SC. unfold Rsqr in SC. unfold da.
      assert (E1 : Rr * Rr + r * r - 2 * r * Rr * cos t = (Rr - r * cos t) * (Rr - r * cos t) + r * sin t * (r * sin t)) by (replace (r * r) with (r * r * (sin t * sin t + cos t * cos t)) by (rewrite SC; ring); ring).
      assert (E2 : Rr * Rr + r * r - 2 * r * Rr * cos t = (Rr * cos t - r) * (Rr * cos t - r) + Rr * sin t * (Rr * sin t)) by (replace (Rr * Rr) with (Rr * Rr * (sin t * sin t + cos t * cos t)) at 1 by (rewrite SC; ring); ring).
      pose proof (Rsq_pos (r * sin t)). pose proof (Rsq_pos (Rr * sin t)). assert (r * cos t <= r) by nra. assert (0 < (Rr - r * cos t) * (Rr - r * cos t)) by (apply Rmult_lt_0_compat; lra).
      repeat split; try lra. nra. }
    assert (K : Rabs (Cz g Rr r z - g / 2 * (1 + z / B)) <= 2 * PI * (Rabs k * Rabs z * (2 * r ^ 2 / ((Rr - r) * (B - r) ^ 3)))).
    { apply (int_err (fun t => k * z * ((Rr - r * cos t) / da t * (g0 B (Rr * cos t) r - (g0 B (Rr * cos t) 0 + g1 B (Rr * cos t) 0 * r)) + (r * (Rr * cos t - r) / (Rr * da t)) * (Rr * cos t * r / B ^ 3)))).
      - assert (K := is_RInt_minus _ _ _ _ _ _ A1 (is_RInt_plus _ _ _ _ _ _ (is_RInt_scal _ _ _ (1 + z / B) _ A0) (is_RInt_scal _ _ _ (k * z * r / B ^ 3) _ int_cos1))).
        match type of K with is_RInt _ _ _ ?v => change v with (Cz g Rr r z + - ((1 + z / B) * (g / 2) + k * z * r / B ^ 3 * 0)) in K end.
        replace (Cz g Rr r z - g / 2 * (1 + z / B)) with (Cz g Rr r z + - ((1 + z / B) * (g / 2) + k * z * r / B ^ 3 * 0)) by ring.
        eapply is_RInt_ext; [|exact K]. intros t _. destruct (DA t) as (D1 & D2 & D3 & D4 & D5).
        match goal with |- _ = ?b => change (k * ((Rr - r * cos t) / (sqrt (dd r Rr z t) * (sqrt (dd r Rr z t) - z))) + - ((1 + z / B) * (k * ((Rr - r * cos t) / (sqrt (dd r Rr 0 t) * (sqrt (dd r Rr 0 t) - 0)))) + k * z * r / B ^ 3 * cos t) = b) end.
        assert (W0 : sqrt (dd r Rr 0 t) * (sqrt (dd r Rr 0 t) - 0) = da t). { rewrite Rminus_0_r, sqrt_sqrt; unfold dd, da in *; lra. } rewrite W0.
        assert (DP : 0 < dd r Rr z t) by (unfold dd, da in *; pose proof (Rsq_pos z); lra).
        assert (SS : sqrt (dd r Rr z t) * sqrt (dd r Rr z t) = da t + z * z) by (rewrite sqrt_sqrt by lra; unfold dd, da; ring).
        assert (SP : 0 < sqrt (dd r Rr z t)) by (apply sqrt_lt_R0; auto).
        unfold g0, g1. rewrite !B_at0, <- dd_ww. set (w := sqrt (dd r Rr z t)) in *.
        assert (WZ : w - z <> 0). { intros E. assert (w = z) by lra. rewrite H in SS. lra. }
        assert (EW : (Rr - r * cos t) / (w * (w - z)) = (Rr - r * cos t) / da t * (1 + z / w)).
        { assert (ED : da t = (w - z) * (w + z)) by (transitivity (w * w - z * z); [lra|ring]). assert (w + z <> 0) by (intros E; rewrite E, Rmult_0_r in ED; lra). rewrite ED. field. repeat split; lra. }
        assert (EE : r * (Rr * cos t - r) / (Rr * da t) = (Rr - r * cos t) / da t - 1 / Rr). { assert (E1 : r * (Rr * cos t - r) = Rr * (Rr - r * cos t) - da t) by (unfold da; ring). rewrite E1. field. split; lra. }
        rewrite EW, EE. field. repeat split; lra.
      - intros t. destruct (DA t) as (D1 & D2 & D3 & D4 & D5). destruct (taylor_g B (Rr * cos t) r hB (qB t) r ltac:(lra)) as (_ & T2 & _). set (e2 := g0 B _ r - _) in *.
        rewrite !Rabs_mult. apply Rmult_le_compat_l; [apply Rmult_le_pos; apply Rabs_pos|].
        assert (X1 : Rabs ((Rr - r * cos t) / da t) <= / (Rr - r)).
        { rewrite Rabs_pos_eq by (apply Rmult_le_pos; [lra|apply Rlt_le, Rinv_0_lt_compat; lra]). apply Rle_trans with (/ (Rr - r * cos t)); [|apply Rinv_le_contravar; lra].
          apply Rmult_le_reg_r with (da t * (Rr - r * cos t)); [apply Rmult_lt_0_compat; lra|]. replace ((Rr - r * cos t) / da t * (da t * (Rr - r * cos t))) with ((Rr - r * cos t) * (Rr - r * cos t)) by (field; lra). replace (/ (Rr - r * cos t) * (da t * (Rr - r * cos t))) with (da t) by (field; lra). auto. }
        assert (X2 : Rabs (r * (Rr * cos t - r) / (Rr * da t)) <= r / (Rr * (Rr - r))).
        { assert (S0 : 0 < sqrt (da t)) by (apply sqrt_lt_R0; auto). assert (S1 : sqrt (da t) * sqrt (da t) = da t) by (apply sqrt_sqrt; lra).
          assert (S2 : Rabs (Rr * cos t - r) <= sqrt (da t)) by (apply Rsqr_incr_0_var; [|lra]; unfold Rsqr; rewrite <- Rabs_mult, Rabs_pos_eq by apply Rsq_pos; lra).
          assert (S3 : Rr - r <= sqrt (da t)) by (apply Rsqr_incr_0_var; [|lra]; unfold Rsqr; lra).
          unfold Rdiv. rewrite !Rabs_mult, (Rabs_pos_eq r), (Rabs_pos_eq (/ (Rr * da t))) by (try apply Rlt_le, Rinv_0_lt_compat, Rmult_lt_0_compat; lra).
          rewrite Rmult_assoc. apply Rmult_le_compat_l; [lra|]. apply Rle_trans with (sqrt (da t) * / (Rr * da t)); [apply Rmult_le_compat_r; auto; apply Rlt_le, Rinv_0_lt_compat, Rmult_lt_0_compat; lra|].
          rewrite <- S1 at 2. replace (sqrt (da t) * / (Rr * (sqrt (da t) * sqrt (da t)))) with (/ (Rr * sqrt (da t))) by (field; lra). apply Rinv_le_contravar; [apply Rmult_lt_0_compat; lra|apply Rmult_le_compat_l; lra]. }
        assert (X3 : Rabs (Rr * cos t * r / B ^ 3) <= Rr * r / (B - r) ^ 3).
        { unfold Rdiv. rewrite !Rabs_mult, (Rabs_pos_eq Rr), (Rabs_pos_eq r), (Rabs_pos_eq (/ B ^ 3)) by (try apply Rlt_le, Rinv_0_lt_compat, pow_lt; lra).
          apply Rmult_le_compat; [apply Rmult_le_pos; [apply Rmult_le_pos; [lra|apply Rabs_pos]|lra]|apply Rlt_le, Rinv_0_lt_compat, pow_lt; lra| |apply Rinv_le_contravar; [apply pow_lt; lra|apply pow_incr; lra]].
          apply Rmult_le_compat_r; [lra|]. pose proof (cosb t). nra. }
        eapply Rle_trans; [apply Rabs_triang|]. rewrite !Rabs_mult.
        apply Rle_trans with (/ (Rr - r) * (1 / (B - r) ^ 3 * r ^ 2) + r / (Rr * (Rr - r)) * (Rr * r / (B - r) ^ 3)).
        + apply Rplus_le_compat; apply Rmult_le_compat; auto; apply Rabs_pos.
        + apply Req_le. field. repeat split; lra. }
    eapply Rle_trans; [exact K|]. unfold k, Rdiv at 1. rewrite !Rabs_mult, (Rabs_pos_eq Rr), (Rabs_pos_eq (/ (4 * PI))) by (try apply Rlt_le, Rinv_0_lt_compat; lra). apply Req_le. field. repeat split; lra.
  Qed.
End Bounds.

Lemma inside_off Rr p : rho p < Rr -> off_sheet Rr 0 p.
Proof.
  intros H th s _ E. pose proof (rho_ge p) as H0. destruct p as [[x y] z]. unfold rho, px, py in *. cbn [fst snd] in *. injection E as E1 E2 E3.
  replace (x * x + y * y) with (Rr * Rr) in *; [rewrite sqrt_square in H; lra|].
  rewrite E1, E2. pose proof (sin2_cos2 th) as SC. unfold Rsqr in SC. transitivity (Rr * Rr * (sin th * sin th + cos th * cos th)); [rewrite SC; ring|ring].
Qed.
(** ** C129 *)
Theorem C129_radial_near_axis : forall g Rr (pts : list R3) i p, 0 < Rr -> nth_error pts i = Some p ->
  1 / 10000000 * Rr <= rho p < Rr -> ~ rim_zone Rr (rho p) (pz p) ->
  let r := rho p in let B := sqrt (Rr * Rr + pz p * pz p) in
  exists ur uz, nth_error (vc_tang_polar (N := XN) (Fin g) (Fin Rr) (Fin 0) (map xv pts)) i = Some (Fin ur, Fin uz) /\
    Rabs (ur - - g / 4 * (r * Rr ^ 2 / B ^ 3)) <= Rabs g * Rr / 2 * (r ^ 3 / (B - r) ^ 4).
Proof.
  intros g Rr pts i p hR Hi [H0 H1] NR r B. destruct (vcu_at _ _ g Rr pts i p third_code hR Hi) as (q & E1 & _). unfold vc_tang_polar. rewrite E1. unfold vcR.
  destruct (rimb_spec Rr (rho p) (pz p)) as [Z|_]; [contradiction|]. destruct (axisb_spec Rr (rho p)) as [Z|Z]; [unfold axis_zone in Z; lra|].
  do 2 eexists. split; [reflexivity|]. apply Cr_near; auto. pose proof (rho_ge p). unfold r. lra.
Qed.
Theorem C129_axial_near_axis : forall PIb, third PIb exact3 -> forall g Rr (pts : list R3) i p, 0 < Rr -> nth_error pts i = Some p ->
  rho p < Rr -> ~ rim_zone Rr (rho p) (pz p) ->
  let r := rho p in let B := sqrt (Rr * Rr + pz p * pz p) in
  exists ur uz, nth_error (vc_tang_polar_gen (N := XN) PIb (Fin g) (Fin Rr) (Fin 0) (map xv pts)) i = Some (Fin ur, Fin uz) /\
    Rabs (uz - g / 2 * (1 + pz p / B)) <= Rabs g * Rr * Rabs (pz p) * r ^ 2 / ((Rr - r) * (B - r) ^ 3).
Proof.
  intros PIb HT g Rr pts i p hR Hi H1 NR r B. pose proof (rho_ge p) as H0. fold r in H0, H1, NR. destruct (vcu_at PIb exact3 g Rr pts i p HT hR Hi) as (q & E1 & _ & _ & Hq). rewrite E1. unfold vcR. fold r.
  destruct (rimb_spec Rr r (pz p)) as [Z|_]; [contradiction|]. destruct (axisb_spec Rr r) as [Z|Z].
  - do 2 eexists. split; [reflexivity|]. unfold B. rewrite (Rplus_comm (pz p * pz p)), Rminus_eq_0, Rabs_R0.
    destruct (B_facts Rr (pz p) hR) as (_ & RB & _). fold B in RB |- *. apply Rmult_le_pos.
    + apply Rmult_le_pos; [apply Rmult_le_pos; [apply Rmult_le_pos; [apply Rabs_pos|lra]|apply Rabs_pos]|apply pow_le; auto].
    + apply Rlt_le, Rinv_0_lt_compat, Rmult_lt_0_compat; [lra|apply pow_lt; lra].
  - do 2 eexists. split; [reflexivity|]. cbn [snd]. rewrite Hq; [|unfold regb, rzp; cbn [fst snd]; fold r; destruct (axisb_spec Rr r); [contradiction|]; destruct (rimb_spec Rr r (pz p)) as [Z'|_]; [contradiction|reflexivity]|unfold r in *; lra].
    apply Cz_near; auto.
Qed.
(** the tolerance band of the code around the axis: its on-axis answer is within 1e-7 of the vorticity of the exact velocity *)
Theorem C129_axis_band : forall g Rr (pts : list R3) i p, 0 < Rr -> nth_error pts i = Some p -> rho p < 1 / 10000000 * Rr ->
  exists u v, nth_error (vc_tang_u (N := XN) (Fin g) (Fin Rr) (Fin 0) (map xv pts)) i = Some (xv u) /\ sheet_velocity g Rr 0 p v /\
    u = (0, 0, g / 2 * (1 + pz p / sqrt (Rr * Rr + pz p * pz p))) /\
    each3 (fun c => Rabs (c u - c v) <= 1 / 10000000 * Rabs g).
Proof.
  intros g Rr pts i p hR Hi H1. pose proof (rho_ge p) as H0. destruct (vcu_at _ _ g Rr pts i p third_code hR Hi) as (q & _ & E2 & _). unfold vc_tang_u. rewrite E2. unfold vcR.
  destruct (rimb_spec Rr (rho p) (pz p)) as [[Z _]|_].
  { exfalso. rewrite Rabs_left in Z by lra. apply (Rmult_lt_compat_r Rr) in Z; auto. unfold Rdiv in Z. rewrite Rmult_assoc, Rinv_l in Z; lra. }
  destruct (axisb_spec Rr (rho p)) as [_|Z]; [|exfalso; apply Z; unfold axis_zone; lra]. cbn [fst snd].
  destruct (azim_polar p) as [P1 P2]. assert (EP : p = (rho p * cos (azim p), rho p * sin (azim p), pz p)) by (destruct p as [[x y] z]; unfold px, py, pz in *; cbn [fst snd] in *; congruence).
  assert (SH := straight_sheet g Rr (rho p) (azim p) (pz p) H0 hR). rewrite <- EP in SH. specialize (SH (inside_off Rr p ltac:(lra))).
  do 2 eexists. split; [reflexivity|]. split; [exact SH|]. rewrite !Rmult_0_l, (Rplus_comm (pz p * pz p)). split; [reflexivity|].
  assert (hr : 0 <= rho p < Rr) by lra. pose proof (Cr_first g Rr (rho p) (pz p) hR hr) as K1. pose proof (Cz_near g Rr (rho p) (pz p) hR hr) as K2.
  destruct (B_facts Rr (pz p) hR) as (_ & RB & ZB). set (B := sqrt (Rr * Rr + pz p * pz p)) in *. set (r := rho p) in *. pose proof (Rabs_pos g) as G0. pose proof (Rabs_pos (pz p)) as Z0.
  assert (B1 : Rabs (Cr g Rr r (pz p)) <= 1 / 10000000 * Rabs g).
  { eapply Rle_trans; [exact K1|]. replace (Rabs g * Rr / 2 * (r / (B - r) ^ 2)) with (Rabs g * (Rr * r / 2 / (B - r) ^ 2)) by (field; lra). rewrite (Rmult_comm (1 / _)). apply Rmult_le_compat_l; auto.
    apply Rmult_le_reg_r with ((B - r) ^ 2); [apply pow_lt; lra|]. unfold Rdiv at 1. rewrite Rmult_assoc, Rinv_l by (apply pow_nonzero; lra).
    assert (L1 : Rr * r <= Rr * (1 / 10000000 * Rr)) by (apply Rmult_le_compat_l; lra).
    assert (L2 : (Rr - r) * (Rr - r) <= (B - r) * (B - r)) by (apply Rmult_le_compat; lra).
    assert (L3 : Rr * (9 / 10) * (Rr * (9 / 10)) <= (Rr - r) * (Rr - r)) by (apply Rmult_le_compat; lra).
    pose proof (Rmult_lt_0_compat Rr Rr hR hR). replace ((B - r) ^ 2) with ((B - r) * (B - r)) by ring. lra. }
  assert (TR : forall c, Rabs c <= 1 -> Rabs (0 - Cr g Rr r (pz p) * c) <= 1 / 10000000 * Rabs g).
  { intros c Hc. rewrite Rminus_0_l, Rabs_Ropp, Rabs_mult. pose proof (Rabs_pos (Cr g Rr r (pz p))). pose proof (Rabs_pos c). nra. }
  split; [|split]; unfold px, py, pz in *; cbn [fst snd] in *.
  - apply TR. apply cosb.
  - apply TR. rewrite <- cos_shift. apply cosb.
  - rewrite Rabs_minus_sym. eapply Rle_trans; [exact K2|]. rewrite (Rmult_comm (1 / _)). unfold Rdiv at 1. rewrite !Rmult_assoc. apply Rmult_le_compat_l; auto.
    apply Rmult_le_reg_r with ((Rr - r) * (B - r) ^ 3); [apply Rmult_lt_0_compat; [lra|apply pow_lt; lra]|]. 
    replace (Rr * (Rabs (snd p) * (r ^ 2 * / ((Rr - r) * (B - r) ^ 3))) * ((Rr - r) * (B - r) ^ 3)) with (Rr * Rabs (snd p) * (r * r)) by (field; split; lra).
    assert (L1 : Rr * Rabs (snd p) <= 2 * (Rr - r) * (2 * (B - r))) by (apply Rmult_le_compat; lra).
    assert (L2 : r * r <= 2 / 10000000 * (B - r) * (2 / 10000000 * (B - r))) by (apply Rmult_le_compat; lra).
    assert (L3 : Rr * Rabs (snd p) * (r * r) <= 2 * (Rr - r) * (2 * (B - r)) * (2 / 10000000 * (B - r) * (2 / 10000000 * (B - r)))) by (apply Rmult_le_compat; auto; apply Rmult_le_pos; lra).
    eapply Rle_trans; [exact L3|]. assert (0 < (Rr - r) * (B - r) ^ 3) by (apply Rmult_lt_0_compat; [lra|apply pow_lt; lra]).
    replace (2 * (Rr - r) * (2 * (B - r)) * (2 / 10000000 * (B - r) * (2 / 10000000 * (B - r)))) with (16 / 100000000000000 * ((Rr - r) * (B - r) ^ 3)) by field. lra.
Qed.
(** two diameters downstream, a quarter of a radius off the axis *)
Example C129_case : let p := (1 / 4, 0, 4) in nth_error [p] 0 = Some p /\ 1 / 10000000 * 1 <= rho p < 1 /\ ~ rim_zone 1 (rho p) (pz p) /\
  rho (1 / 1000000000, 0, 4) < 1 / 10000000 * 1.
Proof.
  cbv zeta. assert (E : forall t, 0 <= t -> rho (t, 0, 4) = t). { intros t Ht. unfold rho, px, py. cbn [fst snd]. replace (t * t + 0 * 0) with (t * t) by ring. apply sqrt_square. auto. }
  rewrite !E by lra. repeat split; try lra. unfold rim_zone, pz. cbn [snd]. intros [_ A]. rewrite Rabs_pos_eq in A by lra. lra.
Qed.
