(** * C127, C128: the vortex ring far away (a point doublet) and near its axis *)
From Coquelicot Require Import Coquelicot.
From Coq Require Import ZArith List Bool Arith Lia String Reals Lra Psatz.
From Verif Require Import Num NumR NumX M_Elliptic M_Line M_Cylinder M_Ring M_Doublet L_List L_X L_Angles L_Built Spec SpecBS L_Calc L_Ell L_Cyl P_Line P_Ring P_Doublet P_Skewed P_Cylinder.
Import ListNotations.
Local Open Scope R_scope.
Local Notation len := List.length.

(** ** A Taylor estimate *)
Lemma dominated (f h f' h' : R -> R) T : f 0 = 0 -> h 0 = 0 -> (forall u, 0 <= u <= T -> is_derive f u (f' u)) -> (forall u, 0 <= u <= T -> is_derive h u (h' u)) ->
  (forall u, 0 <= u <= T -> Rabs (f' u) <= h' u) -> forall u, 0 <= u <= T -> Rabs (f u) <= h u.
Proof.
  intros F0 H0 DF DH B u Hu.
  assert (K : forall q q' : R -> R, q 0 = 0 -> (forall u, 0 <= u <= T -> is_derive q u (q' u)) -> (forall u, 0 <= u <= T -> 0 <= q' u) -> 0 <= q u).
  { intros q q' Q0 DQ BQ. destruct (MVT_gen q 0 u q') as (c & Hc & E).
    - intros x Hx. rewrite Rmin_left, Rmax_right in Hx by lra. apply DQ. lra.
    - intros x Hx. rewrite Rmin_left, Rmax_right in Hx by lra. apply continuity_pt_filterlim. apply (@ex_derive_continuous R_AbsRing R_NormedModule). eexists. apply DQ. lra.
    - rewrite Rmin_left, Rmax_right in Hc by lra. specialize (BQ c ltac:(lra)). assert (0 <= q' c * (u - 0)) by (apply Rmult_le_pos; lra). lra. }
  apply Rabs_le. split.
  - enough (0 <= h u + f u) by lra. apply (K (fun u => h u + f u) (fun u => h' u + f' u)); [lra|intros v Hv; apply (is_derive_plus (V := R_NormedModule)); auto|intros v Hv; specialize (B v Hv); apply Rabs_le_between in B; lra].
  - enough (0 <= h u - f u) by lra. apply (K (fun u => h u - f u) (fun u => h' u - f' u)); [lra|intros v Hv; apply (is_derive_minus (V := R_NormedModule)); auto|intros v Hv; specialize (B v Hv); apply Rabs_le_between in B; lra].
Qed.
Section Phi.
  Variables a q T : R.
  Hypothesis hT : 0 <= T < a.
  Hypothesis hq : Rabs q <= a.
  Definition ww (u : R) : R := sqrt (a * a + u * u - 2 * u * q).
  Lemma ww_ge u : 0 <= u <= T -> a - T <= ww u /\ ww u * ww u = a * a + u * u - 2 * u * q /\ (q - u) * (q - u) <= ww u * ww u /\ 0 < a * a + u * u - 2 * u * q.
  Proof using hT hq.
    intros Hu. apply Rabs_le_between in hq. assert (P : (a - u) * (a - u) <= a * a + u * u - 2 * u * q) by nra. assert (0 < (a - u) * (a - u)) by (apply Rmult_lt_0_compat; lra).
    assert (E : ww u * ww u = a * a + u * u - 2 * u * q) by (apply sqrt_sqrt; lra).
    split; [|split; [|split]]; auto; [|rewrite E; nra|lra]. apply Rle_trans with (a - u); [lra|]. apply Rsqr_incr_0_var; [|apply sqrt_pos]. unfold Rsqr. fold (ww u). lra.
  Qed.
  Definition f0 u := / ww u ^ 3.
  Definition f1 u := 3 * (q - u) * / ww u ^ 5.
  Definition f2 u := -3 * / ww u ^ 5 + 15 * (q - u) ^ 2 * / ww u ^ 7.
  Definition f3 u := -45 * (q - u) * / ww u ^ 7 + 105 * (q - u) ^ 3 * / ww u ^ 9.
  Lemma f_derive u : 0 <= u <= T -> is_derive f0 u (f1 u) /\ is_derive f1 u (f2 u) /\ is_derive f2 u (f3 u).
  Proof using hT hq.
    intros Hu. destruct (ww_ge u Hu) as (W1 & W2 & W3 & W4). assert (0 < ww u) by lra.
    assert (DW : is_derive ww u ((u - q) / ww u)).
    { unfold ww. auto_derive; [lra|]. fold (ww u). unfold Rdiv. replace (a * a + u * u + - (2 * u * q)) with (a * a + u * u - 2 * u * q) by ring. fold (ww u). field. lra. }
    assert (ex_derive ww u) by (eexists; exact DW). pose proof (is_derive_unique _ _ _ DW) as DE.
    unfold f0, f1, f2, f3. split; [|split].
    - auto_derive; [split; [auto|split; [|auto]]; apply Rgt_not_eq; repeat apply Rmult_lt_0_compat; lra|]. match goal with |- context [Derive ?f u] => change (Derive f u) with (Derive ww u) end. rewrite DE. field. lra.
    - auto_derive; [repeat (split; auto); apply Rgt_not_eq; repeat apply Rmult_lt_0_compat; lra|]. match goal with |- context [Derive ?f u] => change (Derive f u) with (Derive ww u) end. rewrite DE. field. lra.
    - auto_derive; [repeat (split; auto); apply Rgt_not_eq; repeat apply Rmult_lt_0_compat; lra|]. match goal with |- context [Derive ?f u] => change (Derive f u) with (Derive ww u) end. rewrite DE. field. lra.
  Qed.
  Lemma f_bound u : 0 <= u <= T -> Rabs (f1 u) <= 3 / (a - T) ^ 4 /\ Rabs (f2 u) <= 12 / (a - T) ^ 5 /\ Rabs (f3 u) <= 60 / (a - T) ^ 6.
  Proof using hT hq.
    intros Hu. destruct (ww_ge u Hu) as (W1 & W2 & W3 & W4). assert (WP : 0 < ww u) by lra. set (w := ww u) in *. set (s := (q - u) / w).
    assert (ES : q - u = s * w) by (unfold s; field; lra).
    assert (SB : -1 <= s <= 1). { rewrite ES in W3. assert (s * s <= 1). { apply (Rmult_le_reg_r (w * w)); [apply Rmult_lt_0_compat; auto|]. lra. } split; nra. }
    assert (K : forall n c v, Rabs v <= c -> Rabs (v * / w ^ n) <= c / (a - T) ^ n).
    { intros n c v Hv. rewrite Rabs_mult, (Rabs_pos_eq (/ w ^ n)) by (apply Rlt_le, Rinv_0_lt_compat, pow_lt; auto). unfold Rdiv. apply Rmult_le_compat; auto; [apply Rabs_pos|apply Rlt_le, Rinv_0_lt_compat, pow_lt; auto|].
      apply Rinv_le_contravar; [apply pow_lt; lra|apply pow_incr; lra]. }
    unfold f1, f2, f3. fold w. rewrite ES. split; [|split].
    - replace (3 * (s * w) * / w ^ 5) with (3 * s * / w ^ 4) by (field; lra). apply K. apply Rabs_le. lra.
    - replace (-3 * / w ^ 5 + 15 * (s * w) ^ 2 * / w ^ 7) with ((-3 + 15 * (s * s)) * / w ^ 5) by (field; lra). apply K. apply Rabs_le. nra.
    - replace (-45 * (s * w) * / w ^ 7 + 105 * (s * w) ^ 3 * / w ^ 9) with ((-45 * s + 105 * (s * s * s)) * / w ^ 6) by (field; lra). apply K. apply Rabs_le.
      assert (0 <= 105 * (s * s) + 105 * s + 60) by nra. assert (0 <= 105 * (s * s) - 105 * s + 60) by nra.
      assert (-45 * s + 105 * (s * s * s) - 60 = (s - 1) * (105 * (s * s) + 105 * s + 60)) by ring. assert (-45 * s + 105 * (s * s * s) + 60 = (s + 1) * (105 * (s * s) - 105 * s + 60)) by ring. nra.
  Qed.
  Lemma taylor u : 0 <= u <= T ->
    Rabs (f0 u - f0 0) <= 3 / (a - T) ^ 4 * u /\
    Rabs (f0 u - (f0 0 + f1 0 * u)) <= 6 / (a - T) ^ 5 * u ^ 2 /\
    Rabs (f0 u - (f0 0 + f1 0 * u + f2 0 / 2 * u ^ 2)) <= 10 / (a - T) ^ 6 * u ^ 3.
  Proof using hT hq.
    intros Hu. destruct hT as [T0 TA]. assert (P : forall n, 0 < / (a - T) ^ n) by (intros n; apply Rinv_0_lt_compat, pow_lt; lra). unfold Rdiv.
    assert (D := fun v Hv => proj1 (f_derive v Hv)). assert (D1 := fun v Hv => proj1 (proj2 (f_derive v Hv))). assert (D2 := fun v Hv => proj2 (proj2 (f_derive v Hv))).
    assert (B := f_bound). unfold Rdiv in B.
    set (p4 := / (a - T) ^ 4) in *. set (p5 := / (a - T) ^ 5) in *. set (p6 := / (a - T) ^ 6) in *.
    assert (LIN : forall (k c v : R), is_derive (fun w => k + c * w) v c) by (intros; auto_derive; auto; ring).
    assert (QUAD : forall (k c e v : R), is_derive (fun w => k + c * w + e * / 2 * w ^ 2) v (c + e * v)) by (intros; auto_derive; auto; field).
    assert (M1 : forall (c v : R), is_derive (fun w => c * w) v c) by (intros; auto_derive; auto; ring).
    assert (M2 : forall (c v : R), is_derive (fun w => c * w ^ 2) v (2 * c * v)) by (intros; auto_derive; auto; ring).
    assert (M3 : forall (c v : R), is_derive (fun w => c * w ^ 3) v (3 * c * v ^ 2)) by (intros; auto_derive; auto; ring).
    assert (SUB : forall (h k : R -> R) v h' k', is_derive h v h' -> is_derive k v k' -> is_derive (fun w => h w - k w) v (h' - k')) by (intros; apply (is_derive_minus (V := R_NormedModule)); auto).
    (* second and first derivatives *)
    assert (E2 : forall v, 0 <= v <= T -> Rabs (f2 v - f2 0) <= 60 * p6 * v).
    { apply (dominated (fun v => f2 v - f2 0) (fun v => 60 * p6 * v) f3 (fun _ => 60 * p6) T); [ring|ring| | |].
      - intros v Hv. replace (f3 v) with (f3 v - 0) by ring. apply SUB; [apply D2; auto|]. apply (is_derive_const (V := R_NormedModule)).
      - intros v Hv. apply M1.
      - intros v Hv. apply B; auto. }
    assert (E1 : forall v, 0 <= v <= T -> Rabs (f1 v - f1 0) <= 12 * p5 * v).
    { apply (dominated (fun v => f1 v - f1 0) (fun v => 12 * p5 * v) f2 (fun _ => 12 * p5) T); [ring|ring| | |].
      - intros v Hv. replace (f2 v) with (f2 v - 0) by ring. apply SUB; [apply D1; auto|]. apply (is_derive_const (V := R_NormedModule)).
      - intros v Hv. apply M1.
      - intros v Hv. apply B; auto. }
    assert (E1' : forall v, 0 <= v <= T -> Rabs (f1 v - (f1 0 + f2 0 * v)) <= 30 * p6 * v ^ 2).
    { apply (dominated (fun v => f1 v - (f1 0 + f2 0 * v)) (fun v => 30 * p6 * v ^ 2) (fun v => f2 v - f2 0) (fun v => 2 * (30 * p6) * v) T); [ring|ring| | |].
      - intros v Hv. apply SUB; [apply D1; auto|]. apply LIN.
      - intros v Hv. apply M2.
      - intros v Hv. replace (2 * (30 * p6) * v) with (60 * p6 * v) by ring. auto. }
    split; [|split].
    - apply (dominated (fun v => f0 v - f0 0) (fun v => 3 * p4 * v) f1 (fun _ => 3 * p4) T); auto; [ring|ring| |].
      + intros v Hv. replace (f1 v) with (f1 v - 0) by ring. apply SUB; [apply D; auto|]. apply (is_derive_const (V := R_NormedModule)).
      + intros v Hv. apply B; auto.
    - apply (dominated (fun v => f0 v - (f0 0 + f1 0 * v)) (fun v => 6 * p5 * v ^ 2) (fun v => f1 v - f1 0) (fun v => 2 * (6 * p5) * v) T); auto; [ring|ring|].
      intros v Hv. replace (2 * (6 * p5) * v) with (12 * p5 * v) by ring. auto.
    - apply (dominated (fun v => f0 v - (f0 0 + f1 0 * v + f2 0 * / 2 * v ^ 2)) (fun v => 10 * p6 * v ^ 3) (fun v => f1 v - (f1 0 + f2 0 * v)) (fun v => 3 * (10 * p6) * v ^ 2) T); auto; [ring|ring|].
      intros v Hv. replace (3 * (10 * p6) * v ^ 2) with (30 * p6 * v ^ 2) by ring. auto.
  Qed.
End Phi.

(** ** The integrals over the circle *)
Lemma int_cos1 : is_RInt cos 0 (2 * PI) 0.
Proof.
  replace 0 with (minus (sin (2 * PI)) (sin 0)) at 2 by (rewrite sin_2PI, sin_0; unfold minus, plus, opp; cbn; ring).
  apply (is_RInt_derive sin cos); intros; [auto_derive; auto; ring|apply (ex_derive_continuous cos); auto_derive; auto].
Qed.
Lemma int_cos2 : is_RInt (fun t => cos t * cos t) 0 (2 * PI) PI.
Proof.
  replace PI with (minus ((2 * PI + sin (2 * PI) * cos (2 * PI)) / 2) ((0 + sin 0 * cos 0) / 2)) at 2 by (rewrite sin_2PI, sin_0; unfold minus, plus, opp; cbn; field).
  apply (is_RInt_derive (fun t => (t + sin t * cos t) / 2) (fun t => cos t * cos t)); intros x _.
  - auto_derive; auto. pose proof (sin2_cos2 x) as SC. unfold Rsqr in SC. lra.
  - apply (ex_derive_continuous (fun t => cos t * cos t)). auto_derive; auto.
Qed.
Lemma int_cos3 : is_RInt (fun t => cos t * cos t * cos t) 0 (2 * PI) 0.
Proof.
  replace 0 with (minus (sin (2 * PI) - sin (2 * PI) ^ 3 / 3) (sin 0 - sin 0 ^ 3 / 3)) at 2 by (rewrite sin_2PI, sin_0; unfold minus, plus, opp; cbn; field).
  apply (is_RInt_derive (fun t => sin t - sin t ^ 3 / 3) (fun t => cos t * cos t * cos t)); intros x _.
  - auto_derive; auto. pose proof (sin2_cos2 x) as SC. unfold Rsqr in SC. replace (cos x * cos x * cos x) with ((1 - sin x * sin x) * cos x) by (rewrite <- SC; ring). field.
  - apply (ex_derive_continuous (fun t => cos t * cos t * cos t)). auto_derive; auto.
Qed.
Lemma int_err (f : R -> R) v B : is_RInt f 0 (2 * PI) v -> (forall t, Rabs (f t) <= B) -> Rabs v <= 2 * PI * B.
Proof.
  intros I H. pose proof PI_RGT_0. rewrite <- (RInt_val _ _ _ _ I). replace (2 * PI) with (2 * PI - 0) at 2 by ring. apply abs_RInt_le_const; [lra|eexists; exact I|auto].
Qed.
Section Circle.
  Variables a p T : R.
  Hypothesis hT : 0 <= T < a.
  Hypothesis hp : 0 <= p <= a.
  Variables J0 J1 : R.
  Hypothesis I0 : is_RInt (fun t => f0 a (p * cos t) T) 0 (2 * PI) J0.
  Hypothesis I1 : is_RInt (fun t => cos t * f0 a (p * cos t) T) 0 (2 * PI) J1.
  Lemma qb t : Rabs (p * cos t) <= a.
  Proof using hp. rewrite Rabs_mult, (Rabs_pos_eq p) by lra. pose proof (COS_bound t). assert (Rabs (cos t) <= 1) by (apply Rabs_le; lra). pose proof (Rabs_pos (cos t)). nra. Qed.
  Lemma cosb t : Rabs (cos t) <= 1.
  Proof. pose proof (COS_bound t). apply Rabs_le; lra. Qed.
  Lemma at0 q : ww a q 0 = a.
  Proof using hT. unfold ww. replace (a * a + 0 * 0 - 2 * 0 * q) with (a * a) by ring. apply sqrt_square. lra. Qed.
  Lemma a0 : 0 < a. Proof using hT. lra. Qed.
  Lemma J0_far : Rabs (J0 - 2 * PI / a ^ 3) <= 2 * PI * (6 / (a - T) ^ 5 * T ^ 2).
  Proof using hT hp I0.
    pose proof a0 as A0. apply (int_err (fun t => f0 a (p * cos t) T - (f0 a (p * cos t) 0 + f1 a (p * cos t) 0 * T))).
    - assert (K := is_RInt_minus _ _ _ _ _ _ I0 (is_RInt_plus _ _ _ _ _ _ (is_RInt_const (V := R_NormedModule) 0 (2 * PI) (/ a ^ 3)) (is_RInt_scal _ _ _ (3 * p / a ^ 5 * T) _ int_cos1))).
      match type of K with is_RInt _ _ _ ?v => change v with (J0 + - ((2 * PI - 0) * / a ^ 3 + 3 * p / a ^ 5 * T * 0)) in K end.
      replace (J0 - 2 * PI / a ^ 3) with (J0 + - ((2 * PI - 0) * / a ^ 3 + 3 * p / a ^ 5 * T * 0)) by (unfold Rdiv; ring).
      eapply is_RInt_ext; [|exact K]. intros t _. change (f0 a (p * cos t) T + - (/ a ^ 3 + 3 * p / a ^ 5 * T * cos t) = f0 a (p * cos t) T - (f0 a (p * cos t) 0 + f1 a (p * cos t) 0 * T)).
      unfold f1. unfold f0 at 3. rewrite !at0. unfold Rdiv. ring.
    - intros t. apply taylor; auto; [apply qb|lra].
  Qed.
  Lemma J1_first : Rabs J1 <= 2 * PI * (3 / (a - T) ^ 4 * T).
  Proof using hT hp I1.
    pose proof a0 as A0. apply (int_err (fun t => cos t * (f0 a (p * cos t) T - f0 a (p * cos t) 0))).
    - assert (K := is_RInt_minus _ _ _ _ _ _ I1 (is_RInt_scal _ _ _ (/ a ^ 3) _ int_cos1)).
      match type of K with is_RInt _ _ _ ?v => change v with (J1 + - (/ a ^ 3 * 0)) in K end. replace J1 with (J1 + - (/ a ^ 3 * 0)) by ring.
      eapply is_RInt_ext; [|exact K]. intros t _. change (cos t * f0 a (p * cos t) T + - (/ a ^ 3 * cos t) = cos t * (f0 a (p * cos t) T - f0 a (p * cos t) 0)).
      unfold f0 at 3. rewrite !at0. ring.
    - intros t. destruct (taylor a (p * cos t) T hT (qb t) T ltac:(lra)) as (B & _ & _). rewrite Rabs_mult. pose proof (cosb t). pose proof (Rabs_pos (cos t)). pose proof (Rabs_pos (f0 a (p * cos t) T - f0 a (p * cos t) 0)). nra.
  Qed.
  Lemma J1_far : Rabs (J1 - 3 * PI * p * T / a ^ 5) <= 2 * PI * (10 / (a - T) ^ 6 * T ^ 3).
  Proof using hT hp I1.
    pose proof a0 as A0. apply (int_err (fun t => cos t * (f0 a (p * cos t) T - (f0 a (p * cos t) 0 + f1 a (p * cos t) 0 * T + f2 a (p * cos t) 0 / 2 * T ^ 2)))).
    - assert (K := is_RInt_minus _ _ _ _ _ _ I1 (is_RInt_plus _ _ _ _ _ _ (is_RInt_scal _ _ _ (/ a ^ 3 - 3 / a ^ 5 / 2 * T ^ 2) _ int_cos1) (is_RInt_plus _ _ _ _ _ _ (is_RInt_scal _ _ _ (3 * p / a ^ 5 * T) _ int_cos2) (is_RInt_scal _ _ _ (15 * p ^ 2 / a ^ 7 / 2 * T ^ 2) _ int_cos3)))).
      match type of K with is_RInt _ _ _ ?v => change v with (J1 + - ((/ a ^ 3 - 3 / a ^ 5 / 2 * T ^ 2) * 0 + (3 * p / a ^ 5 * T * PI + 15 * p ^ 2 / a ^ 7 / 2 * T ^ 2 * 0))) in K end.
      replace (J1 - 3 * PI * p * T / a ^ 5) with (J1 + - ((/ a ^ 3 - 3 / a ^ 5 / 2 * T ^ 2) * 0 + (3 * p / a ^ 5 * T * PI + 15 * p ^ 2 / a ^ 7 / 2 * T ^ 2 * 0))) by (unfold Rdiv; ring).
      eapply is_RInt_ext; [|exact K]. intros t _.
      change (cos t * f0 a (p * cos t) T + - ((/ a ^ 3 - 3 / a ^ 5 / 2 * T ^ 2) * cos t + (3 * p / a ^ 5 * T * (cos t * cos t) + 15 * p ^ 2 / a ^ 7 / 2 * T ^ 2 * (cos t * cos t * cos t))) =
        cos t * (f0 a (p * cos t) T - (f0 a (p * cos t) 0 + f1 a (p * cos t) 0 * T + f2 a (p * cos t) 0 / 2 * T ^ 2))).
      unfold f1, f2. unfold f0 at 3. rewrite !at0. unfold Rdiv. ring.
    - intros t. destruct (taylor a (p * cos t) T hT (qb t) T ltac:(lra)) as (_ & _ & B). rewrite Rabs_mult. pose proof (cosb t). pose proof (Rabs_pos (cos t)).
      set (e := f0 a (p * cos t) T - _) in *. pose proof (Rabs_pos e). nra.
  Qed.
End Circle.
(** both readings of the distance to a point of the circle *)
Lemma d3_far r Rr z t : 0 < dd r Rr z t -> / (dd r Rr z t * sqrt (dd r Rr z t)) = f0 (sqrt (r * r + z * z)) (r * cos t) Rr /\ / (dd r Rr z t * sqrt (dd r Rr z t)) = f0 (sqrt (Rr * Rr + z * z)) (Rr * cos t) r.
Proof.
  intros P. pose proof (Rsq_pos r). pose proof (Rsq_pos Rr). pose proof (Rsq_pos z). unfold f0, ww. rewrite !sqrt_sqrt by lra.
  replace (r * r + z * z + Rr * Rr - 2 * Rr * (r * cos t)) with (dd r Rr z t) by (unfold dd; ring). replace (Rr * Rr + z * z + r * r - 2 * r * (Rr * cos t)) with (dd r Rr z t) by (unfold dd; ring).
  assert (E : sqrt (dd r Rr z t) ^ 3 = dd r Rr z t * sqrt (dd r Rr z t)) by (cbn [pow]; rewrite Rmult_1_r, <- Rmult_assoc, sqrt_sqrt by lra; reflexivity). rewrite E. auto.
Qed.
Lemma ring_ints r Rr z : 0 < (r - Rr) * (r - Rr) + z * z -> 0 <= r -> 0 < Rr ->
  (is_RInt (fun t => f0 (sqrt (r * r + z * z)) (r * cos t) Rr) 0 (2 * PI) (II2 r Rr z) /\ is_RInt (fun t => cos t * f0 (sqrt (r * r + z * z)) (r * cos t) Rr) 0 (2 * PI) (Jc r Rr z)) /\
  (is_RInt (fun t => f0 (sqrt (Rr * Rr + z * z)) (Rr * cos t) r) 0 (2 * PI) (II2 r Rr z) /\ is_RInt (fun t => cos t * f0 (sqrt (Rr * Rr + z * z)) (Rr * cos t) r) 0 (2 * PI) (Jc r Rr z)).
Proof.
  intros OFF hr hR. pose proof (dd_pos r Rr z OFF hr hR) as DP.
  assert (E := fun t => d3_far r Rr z t (DP t)).
  repeat split; (eapply is_RInt_ext; [|first [apply (d3_int r Rr z OFF hr hR)|apply (Jc_int r Rr z OFF hr hR)]]); intros t _; destruct (E t) as [E1 E2]; cbv beta; rewrite ?E1; try rewrite <- E2, ?E1; auto; congruence.
Qed.

(** ** Polar components *)
Lemma Wz_tri G Rr r II J m2 m1 e2 e1 : 0 < Rr -> 0 <= r -> Rabs (II - m2) <= 2 * PI * e2 -> Rabs (J - m1) <= 2 * PI * e1 ->
  Rabs (G * Rr / (4 * PI) * (Rr * II - r * J) - G * Rr / (4 * PI) * (Rr * m2 - r * m1)) <= Rabs G * Rr / 2 * (Rr * e2 + r * e1).
Proof.
  intros hR hr H2 H1. pose proof PI_RGT_0 as HP. replace (_ - _) with (G * Rr / (4 * PI) * (Rr * (II - m2) - r * (J - m1))) by ring.
  rewrite Rabs_mult. unfold Rdiv at 1. rewrite !Rabs_mult, (Rabs_pos_eq Rr), (Rabs_pos_eq (/ (4 * PI))) by (try apply Rlt_le, Rinv_0_lt_compat; lra).
  replace (Rabs G * Rr / 2 * (Rr * e2 + r * e1)) with (Rabs G * Rr * / (4 * PI) * (Rr * (2 * PI * e2) + r * (2 * PI * e1))) by (field; lra).
  apply Rmult_le_compat_l; [apply Rmult_le_pos; [apply Rmult_le_pos; [apply Rabs_pos|lra]|apply Rlt_le, Rinv_0_lt_compat; lra]|].
  eapply Rle_trans; [apply Rabs_triang|]. rewrite Rabs_Ropp, !Rabs_mult, (Rabs_pos_eq Rr), (Rabs_pos_eq r) by lra. apply Rplus_le_compat; apply Rmult_le_compat_l; lra.
Qed.
Lemma Wr_tri G Rr z J m1 e1 : 0 < Rr -> Rabs (J - m1) <= 2 * PI * e1 -> Rabs (G * Rr / (4 * PI) * z * J - G * Rr / (4 * PI) * z * m1) <= Rabs G * Rr * Rabs z / 2 * e1.
Proof.
  intros hR H1. pose proof PI_RGT_0 as HP. replace (_ - _) with (G * Rr / (4 * PI) * z * (J - m1)) by ring.
  rewrite !Rabs_mult. unfold Rdiv at 1. rewrite !Rabs_mult, (Rabs_pos_eq Rr), (Rabs_pos_eq (/ (4 * PI))) by (try apply Rlt_le, Rinv_0_lt_compat; lra).
  replace (Rabs G * Rr * Rabs z / 2 * e1) with (Rabs G * Rr * / (4 * PI) * Rabs z * (2 * PI * e1)) by (field; lra).
  apply Rmult_le_compat_l; auto. apply Rmult_le_pos; [apply Rmult_le_pos; [apply Rmult_le_pos; [apply Rabs_pos|lra]|apply Rlt_le, Rinv_0_lt_compat; lra]|apply Rabs_pos].
Qed.
Section Bounds.
  Variables G Rr r z : R.
  Hypothesis hR : 0 < Rr.
  Hypothesis hr : 0 <= r.
  Lemma far_W : let a := sqrt (r * r + z * z) in Rr < a ->
    Rabs (Wr G Rr r z - 3 * G * Rr ^ 2 * r * z / (4 * a ^ 5)) <= 5 * Rabs G * Rr ^ 4 * Rabs z / (a - Rr) ^ 6 /\
    Rabs (Wz G Rr r z - G * Rr ^ 2 / 4 * (2 / a ^ 3 - 3 * r ^ 2 / a ^ 5)) <= 8 * Rabs G * Rr ^ 4 * a / (a - Rr) ^ 6.
  Proof using hR hr.
    intros a Ha. pose proof PI_RGT_0 as HP. pose proof (Rsq_pos r) as R2. pose proof (Rsq_pos z) as Z2.
    assert (A2 : a * a = r * r + z * z) by (apply sqrt_sqrt; lra). assert (RA : r <= a) by (apply Rsqr_incr_0_var; [unfold Rsqr; lra|apply sqrt_pos]).
    assert (OFF : 0 < (r - Rr) * (r - Rr) + z * z). { replace ((r - Rr) * (r - Rr) + z * z) with ((a - Rr) * (a - Rr) + 2 * Rr * (a - r)) by (rewrite <- (Rplus_0_r (_ + z * z)); nra). assert (0 < (a - Rr) * (a - Rr)) by (apply Rmult_lt_0_compat; lra). assert (0 <= 2 * Rr * (a - r)) by (apply Rmult_le_pos; lra). lra. }
    destruct (ring_ints r Rr z OFF hr hR) as ((I0 & I1) & _). fold a in I0, I1.
    pose proof (J0_far a r Rr ltac:(lra) ltac:(lra) _ I0) as B0. pose proof (J1_far a r Rr ltac:(lra) ltac:(lra) _ I1) as B1.
    assert (D : 0 < a - Rr) by lra. unfold Wr, Wz. split.
    - pose proof (Wr_tri G Rr z _ _ _ hR B1) as K. replace (3 * G * Rr ^ 2 * r * z / (4 * a ^ 5)) with (G * Rr / (4 * PI) * z * (3 * PI * r * Rr / a ^ 5)) by (field; split; lra).
      eapply Rle_trans; [exact K|]. apply Req_le. field. lra.
    - pose proof (Wz_tri G Rr r _ _ _ _ _ _ hR hr B0 B1) as K. replace (G * Rr ^ 2 / 4 * (2 / a ^ 3 - 3 * r ^ 2 / a ^ 5)) with (G * Rr / (4 * PI) * (Rr * (2 * PI / a ^ 3) - r * (3 * PI * r * Rr / a ^ 5))) by (field; split; lra).
      eapply Rle_trans; [exact K|]. replace (Rabs G * Rr / 2 * (Rr * (6 / (a - Rr) ^ 5 * Rr ^ 2) + r * (10 / (a - Rr) ^ 6 * Rr ^ 3))) with (Rabs G * Rr ^ 4 / (a - Rr) ^ 6 * (3 * (a - Rr) + 5 * r)) by (field; lra).
      replace (8 * Rabs G * Rr ^ 4 * a / (a - Rr) ^ 6) with (Rabs G * Rr ^ 4 / (a - Rr) ^ 6 * (8 * a)) by (field; lra).
      apply Rmult_le_compat_l; [|lra]. apply Rmult_le_pos; [apply Rmult_le_pos; [apply Rabs_pos|apply pow_le; lra]|apply Rlt_le, Rinv_0_lt_compat, pow_lt; lra].
  Qed.
  Lemma axis_W : let B := sqrt (Rr * Rr + z * z) in r < B -> 0 < (r - Rr) * (r - Rr) + z * z ->
    Rabs (Wr G Rr r z - 3 * G * Rr ^ 2 * r * z / (4 * B ^ 5)) <= 5 * Rabs G * Rr * Rabs z * r ^ 3 / (B - r) ^ 6 /\
    Rabs (Wr G Rr r z) <= 3 / 2 * (Rabs G * Rr * Rabs z * r) / (B - r) ^ 4 /\
    Rabs (Wz G Rr r z - G * Rr ^ 2 / (2 * B ^ 3)) <= 9 / 2 * (Rabs G * Rr * B * r ^ 2) / (B - r) ^ 5.
  Proof using hR hr.
    intros B Hb OFF. pose proof PI_RGT_0 as HP. pose proof (Rsq_pos Rr) as R2. pose proof (Rsq_pos z) as Z2.
    assert (B2 : B * B = Rr * Rr + z * z) by (apply sqrt_sqrt; lra). assert (RB : Rr <= B) by (apply Rsqr_incr_0_var; [unfold Rsqr; lra|apply sqrt_pos]).
    destruct (ring_ints r Rr z OFF hr hR) as (_ & (I0 & I1)). fold B in I0, I1.
    pose proof (J0_far B Rr r ltac:(lra) ltac:(lra) _ I0) as B0. pose proof (J1_far B Rr r ltac:(lra) ltac:(lra) _ I1) as B1. pose proof (J1_first B Rr r ltac:(lra) ltac:(lra) _ I1) as B1'.
    replace (Jc r Rr z) with (Jc r Rr z - 0) in B1' by ring.
    assert (D : 0 < B - r) by lra. unfold Wr, Wz. split; [|split].
    - pose proof (Wr_tri G Rr z _ _ _ hR B1) as K. replace (3 * G * Rr ^ 2 * r * z / (4 * B ^ 5)) with (G * Rr / (4 * PI) * z * (3 * PI * Rr * r / B ^ 5)) by (field; split; lra).
      eapply Rle_trans; [exact K|]. apply Req_le. field. lra.
    - pose proof (Wr_tri G Rr z _ _ _ hR B1') as K. rewrite Rmult_0_r, Rminus_0_r in K. eapply Rle_trans; [exact K|]. apply Req_le. field. lra.
    - pose proof (Wz_tri G Rr r _ _ _ _ _ _ hR hr B0 B1') as K. replace (G * Rr ^ 2 / (2 * B ^ 3)) with (G * Rr / (4 * PI) * (Rr * (2 * PI / B ^ 3) - r * 0)) by (field; split; lra).
      eapply Rle_trans; [exact K|]. replace (Rabs G * Rr / 2 * (Rr * (6 / (B - r) ^ 5 * r ^ 2) + r * (3 / (B - r) ^ 4 * r))) with (Rabs G * Rr * r ^ 2 / (2 * (B - r) ^ 5) * (6 * Rr + 3 * (B - r))) by (field; lra).
      replace (9 / 2 * (Rabs G * Rr * B * r ^ 2) / (B - r) ^ 5) with (Rabs G * Rr * r ^ 2 / (2 * (B - r) ^ 5) * (9 * B)) by (field; lra).
      apply Rmult_le_compat_l; [|lra]. apply Rmult_le_pos; [apply Rmult_le_pos; [apply Rmult_le_pos; [apply Rabs_pos|lra]|apply pow_le; lra]|apply Rlt_le, Rinv_0_lt_compat, Rmult_lt_0_compat; [lra|apply pow_lt; lra]].
  Qed.
End Bounds.

Lemma ring_regular G Rr eps x y z : 0 < Rr -> let r := sqrt (x * x + y * y) in r = 0 \/ 1/10000000 * Rr <= r -> ~ (Rabs (r - Rr) < 1/10000000 * Rr /\ Rabs z < 1/10000000) ->
  ring_u_pol (N := XN) (Fin G) (Fin Rr) eps (Fin x, Fin y, Fin z) = (Fin (Wr G Rr r z), Fin (Wz G Rr r z)) /\
  ring_u (N := XN) (Fin G) (Fin Rr) eps (Fin x, Fin y, Fin z) = xv (circR G r Rr z (Ratan2 y x)).
Proof.
  intros HR r Hr NR. rewrite circR_W. unfold ring_u.
  assert (E : ring_u_pol (N := XN) (Fin G) (Fin Rr) eps (Fin x, Fin y, Fin z) = (Fin (Wr G Rr r z), Fin (Wz G Rr r z))).
  { destruct Hr as [Hr|Hr].
    - rewrite pol_axis; auto; [|fold r; rewrite Hr; unfold near_axis; lra]. destruct (W_axis G Rr z HR) as [E1 E2]. rewrite Hr, E1, E2. reflexivity.
    - apply pol_reg; auto. fold r. unfold near_axis. lra. }
  rewrite E. split; reflexivity.
Qed.
Lemma cs_le w c : Rabs c <= 1 -> Rabs (w * c) <= Rabs w.
Proof. intros H. rewrite Rabs_mult. pose proof (Rabs_pos w). nra. Qed.

(** ** C127: far away, the ring is a point doublet of moment Gamma pi R^2 *)
Theorem C127_ring_is_a_doublet_far_away : forall G Rr eps x y z, 0 < Rr -> let r := sqrt (x * x + y * y) in let a := length3 (x, y, z) in Rr < a ->
  r = 0 \/ 1/10000000 * Rr <= r -> ~ (Rabs (r - Rr) < 1/10000000 * Rr /\ Rabs z < 1/10000000) -> 1/100000000 <= a ^ 3 ->
  exists u d, ring_u (N := XN) (Fin G) (Fin Rr) eps (Fin x, Fin y, Fin z) = xv u /\
    doublet_u (N := XN) (xv (0, 0, G * PI * Rr ^ 2)) (xv (0, 0, 0)) (Fin x, Fin y, Fin z) = xv d /\
    each3 (fun c => Rabs (c u - c d) <= 8 * Rabs G * Rr ^ 4 * a / (a - Rr) ^ 6).
Proof.
  intros G Rr eps x y z HR r a Ha Hr NR Ha3. pose proof PI_RGT_0 as HP. assert (hr : 0 <= r) by apply sqrt_pos.
  destruct (ring_regular G Rr eps x y z HR Hr NR) as [_ E]. fold r in E.
  assert (EP : sub3 (x, y, z) (0, 0, 0) = (x, y, z)) by (unfold sub3, px, py, pz; cbn [fst snd]; rewrite !Rminus_0_r; reflexivity).
  destruct (C65_point_doublet (0, 0, G * PI * Rr ^ 2) (0, 0, 0) (x, y, z)) as [PD _]. rewrite EP in PD. specialize (PD Ha3).
  exists (circR G r Rr z (Ratan2 y x)), (point_doublet (0, 0, G * PI * Rr ^ 2) (0, 0, 0) (x, y, z)). split; [exact E|]. split; [exact PD|].
  assert (R2 : r * r = x * x + y * y) by (apply sqrt_sqrt; pose proof (Rsq_pos x); pose proof (Rsq_pos y); lra).
  assert (EA : a = sqrt (r * r + z * z)) by (unfold a, length3, inner, px, py, pz; cbn [fst snd]; rewrite R2; reflexivity).
  pose proof (far_W G Rr r z HR hr) as F. cbv zeta in F. rewrite <- EA in F. destruct (F Ha) as [F1 F2].
  destruct (Ratan2_polar_all y x) as [PX PY]. fold r in PX, PY.
  assert (ED : point_doublet (0, 0, G * PI * Rr ^ 2) (0, 0, 0) (x, y, z) = (3 * G * Rr ^ 2 * r * z / (4 * a ^ 5) * cos (Ratan2 y x), 3 * G * Rr ^ 2 * r * z / (4 * a ^ 5) * sin (Ratan2 y x), G * Rr ^ 2 / 4 * (2 / a ^ 3 - 3 * r ^ 2 / a ^ 5))).
  { unfold point_doublet. rewrite EP. fold a. unfold scal3, sub3, inner, px, py, pz. cbn [fst snd].
    assert (A2 : a * a = r * r + z * z) by (rewrite EA; apply sqrt_sqrt; pose proof (Rsq_pos r); pose proof (Rsq_pos z); lra).
    apply tri.
    - transitivity (3 * G * Rr ^ 2 * (r * cos (Ratan2 y x)) * z / (4 * a ^ 5)); [rewrite PX|]; field; lra.
    - transitivity (3 * G * Rr ^ 2 * (r * sin (Ratan2 y x)) * z / (4 * a ^ 5)); [rewrite PY|]; field; lra.
    - replace (3 * r ^ 2) with (3 * (a * a - z * z)) by (rewrite A2; ring). field. lra. }
  rewrite ED, circR_W. assert (A0 : 0 < a) by lra.
  assert (ZA : Rabs z <= a). { apply Rsqr_incr_0_var; [|lra]. unfold Rsqr. rewrite <- Rabs_mult, Rabs_pos_eq by apply Rsq_pos. rewrite EA at 1 2. rewrite sqrt_sqrt by (pose proof (Rsq_pos r); pose proof (Rsq_pos z); lra). pose proof (Rsq_pos r). lra. }
  assert (F1' : Rabs (Wr G Rr r z - 3 * G * Rr ^ 2 * r * z / (4 * a ^ 5)) <= 8 * Rabs G * Rr ^ 4 * a / (a - Rr) ^ 6).
  { eapply Rle_trans; [exact F1|]. unfold Rdiv. apply Rmult_le_compat_r; [apply Rlt_le, Rinv_0_lt_compat, pow_lt; lra|]. pose proof (Rabs_pos G). pose proof (pow_lt Rr 4 HR). assert (0 <= Rabs G * Rr ^ 4) by (apply Rmult_le_pos; lra). pose proof (Rabs_pos z). nra. }
  pose proof (COS_bound (Ratan2 y x)). pose proof (SIN_bound (Ratan2 y x)).
  split; [|split]; unfold px, py, pz; cbn [fst snd]; auto.
  - replace (_ - _) with ((Wr G Rr r z - 3 * G * Rr ^ 2 * r * z / (4 * a ^ 5)) * cos (Ratan2 y x)) by ring. eapply Rle_trans; [apply cs_le; apply Rabs_le; lra|exact F1'].
  - replace (_ - _) with ((Wr G Rr r z - 3 * G * Rr ^ 2 * r * z / (4 * a ^ 5)) * sin (Ratan2 y x)) by ring. eapply Rle_trans; [apply cs_le; apply Rabs_le; lra|exact F1'].
Qed.
(** the points of the unit test, at 20 radii *)
Example C127_nonvacuous : let p := (200, 0, 0) in 10 < length3 p /\ 1/10000000 * 10 <= sqrt (200 * 200 + 0 * 0) /\ ~ (Rabs (sqrt (200 * 200 + 0 * 0) - 10) < 1/10000000 * 10 /\ Rabs 0 < 1/10000000) /\ 1/100000000 <= length3 p ^ 3.
Proof.
  assert (E : sqrt (200 * 200 + 0 * 0) = 200) by (replace (200 * 200 + 0 * 0) with (200 * 200) by ring; apply sqrt_square; lra).
  assert (L : length3 (200, 0, 0) = 200) by (unfold length3, inner, px, py, pz; cbn [fst snd]; replace (200 * 200 + 0 * 0 + 0 * 0) with (200 * 200) by ring; apply sqrt_square; lra).
  cbv zeta. rewrite E, L. repeat split; try lra. intros [H _]. rewrite Rabs_pos_eq in H by lra. lra.
Qed.

(** ** C128: near the axis *)
(** the expansion of the velocity about the axis, with the error made *)
Theorem C128_near_axis : forall G Rr eps x y z, 0 < Rr -> let r := sqrt (x * x + y * y) in let B := sqrt (Rr * Rr + z * z) in r < B ->
  r = 0 \/ 1/10000000 * Rr <= r -> ~ (Rabs (r - Rr) < 1/10000000 * Rr /\ Rabs z < 1/10000000) ->
  exists ur uz, ring_u_pol (N := XN) (Fin G) (Fin Rr) eps (Fin x, Fin y, Fin z) = (Fin ur, Fin uz) /\
    Rabs (ur - 3 * G / (4 * Rr) * (r * z / Rr ^ 2) * (Rr / B) ^ 5) <= 5 * Rabs G * Rr * Rabs z * r ^ 3 / (B - r) ^ 6 /\
    Rabs (uz - G / (2 * Rr) * (Rr / B) ^ 3) <= 9 / 2 * (Rabs G * Rr * B * r ^ 2) / (B - r) ^ 5.
Proof.
  intros G Rr eps x y z HR r B Hb Hr NR. assert (hr : 0 <= r) by apply sqrt_pos.
  destruct (ring_regular G Rr eps x y z HR Hr NR) as [E _]. fold r in E. exists (Wr G Rr r z), (Wz G Rr r z). split; [exact E|].
  destruct (axis_W G Rr r z HR hr Hb (P_Ring.not_near_off Rr r z HR NR)) as (A1 & _ & A3). fold B in A1, A3.
  assert (B0 : 0 < B) by lra. split.
  - replace (3 * G / (4 * Rr) * (r * z / Rr ^ 2) * (Rr / B) ^ 5) with (3 * G * Rr ^ 2 * r * z / (4 * B ^ 5)) by (field; split; lra). exact A1.
  - replace (G / (2 * Rr) * (Rr / B) ^ 3) with (G * Rr ^ 2 / (2 * B ^ 3)) by (field; split; lra). exact A3.
Qed.
Example C128_nonvacuous : 1 < sqrt (10 * 10 + 5 * 5) /\ 1/10000000 * 10 <= 1 /\ ~ (Rabs (1 - 10) < 1/10000000 * 10 /\ Rabs 5 < 1/10000000).
Proof. split; [rewrite <- sqrt_1 at 1; apply sqrt_lt_1; lra|]. split; [lra|]. intros [H _]. rewrite Rabs_left in H by lra. lra. Qed.
(** where the code replaces its formula by the value on the axis it is within 2e-7 Gamma/R of the circle's velocity *)
Theorem C128_axis_zone : forall G Rr eps x y z, 0 < Rr -> sqrt (x * x + y * y) < 1/10000000 * Rr ->
  exists u v, ring_u (N := XN) (Fin G) (Fin Rr) eps (Fin x, Fin y, Fin z) = xv u /\ circle_velocity G Rr (x, y, z) v /\ each3 (fun c => Rabs (c u - c v) <= 2 / 10000000 * Rabs G / Rr).
Proof.
  intros G Rr eps x y z HR NA. set (r := sqrt (x * x + y * y)) in *. assert (hr : 0 <= r) by apply sqrt_pos. pose proof PI_RGT_0 as HP.
  assert (NR : ~ (Rabs (r - Rr) < 1/10000000 * Rr /\ Rabs z < 1/10000000)) by (intros [H _]; rewrite Rabs_left in H by lra; lra).
  assert (OFF := P_Ring.not_near_off Rr r z HR NR). set (B := sqrt (Rr * Rr + z * z)).
  assert (B2 : B * B = Rr * Rr + z * z) by (apply sqrt_sqrt; pose proof (Rsq_pos Rr); pose proof (Rsq_pos z); lra).
  assert (RB : Rr <= B) by (apply Rsqr_incr_0_var; [unfold Rsqr; pose proof (Rsq_pos z); lra|apply sqrt_pos]).
  assert (Hb : r < B) by lra. destruct (axis_W G Rr r z HR hr Hb OFF) as (_ & A2 & A3). fold B in A2, A3.
  assert (ZB : Rabs z <= B). { apply Rsqr_incr_0_var; [|lra]. unfold Rsqr. rewrite <- Rabs_mult, Rabs_pos_eq by apply Rsq_pos. pose proof (Rsq_pos Rr). lra. }
  exists (0, 0, G * Rr ^ 2 / (2 * B ^ 3)), (circR G r Rr z (Ratan2 y x)). split; [|split].
  - unfold ring_u. rewrite pol_axis by (auto; fold r; unfold near_axis; lra).
    destruct (W_axis G Rr z HR) as [_ EW]. rewrite <- EW.
    destruct (axis_W G Rr 0 z HR ltac:(lra) ltac:(fold B; lra) ltac:(pose proof (Rsq_pos z); nra)) as (_ & _ & A0). fold B in A0.
    replace (9 / 2 * (Rabs G * Rr * B * 0 ^ 2) / (B - 0) ^ 5) with 0 in A0 by (cbn [pow]; unfold Rdiv; ring).
    assert (EE : Wz G Rr 0 z = G * Rr ^ 2 / (2 * B ^ 3)) by (pose proof (Rabs_pos (Wz G Rr 0 z - G * Rr ^ 2 / (2 * B ^ 3))); destruct (Req_dec (Wz G Rr 0 z - G * Rr ^ 2 / (2 * B ^ 3)) 0) as [Q|Q]; [lra|pose proof (Rabs_pos_lt _ Q); lra]).
    rewrite EE. unfold cart_of_polar2, xv, px, py, pz. cbn. rewrite !Rmult_0_l. reflexivity.
  - destruct (Ratan2_polar_all y x) as [PX PY]. fold r in PX, PY. pose proof (circle_BS G r Rr z (Ratan2 y x) OFF hr HR) as K. rewrite PX, PY in K. exact K.
  - assert (DB : 99/100 * B <= B - r) by lra. assert (B0 : 0 < B) by lra. pose proof (Rabs_pos G) as G0.
    assert (P4 : 9/10 * B ^ 4 <= (B - r) ^ 4). { apply Rle_trans with ((99/100 * B) ^ 4); [|apply pow_incr; lra]. rewrite Rpow_mult_distr. assert (0 <= B ^ 4) by (apply pow_le; lra). nra. }
    assert (P5 : 9/10 * B ^ 5 <= (B - r) ^ 5). { apply Rle_trans with ((99/100 * B) ^ 5); [|apply pow_incr; lra]. rewrite Rpow_mult_distr. assert (0 <= B ^ 5) by (apply pow_le; lra). nra. }
    assert (IB : forall n, / B ^ n <= / Rr ^ n) by (intros n; apply Rinv_le_contravar; [apply pow_lt; auto|apply pow_incr; lra]).
    assert (K : forall e N D k, 0 <= N -> e <= N / D -> 9/10 * k <= D -> 0 < k -> e <= 10/9 * N / k).
    { intros e Nn D k HN He HD Hk. eapply Rle_trans; [exact He|]. replace (10/9 * Nn / k) with (Nn * / (9/10 * k)) by (field; lra). apply Rmult_le_compat_l; auto. apply Rinv_le_contravar; lra. }
    assert (G1 : 0 <= Rabs G * Rr) by (apply Rmult_le_pos; lra).
    assert (KW : Rabs (Wr G Rr r z) <= 2 / 10000000 * Rabs G / Rr).
    { eapply Rle_trans; [eapply K; [|exact A2|exact P4|apply pow_lt; lra]; apply Rmult_le_pos; [lra|]; apply Rmult_le_pos; [apply Rmult_le_pos; [exact G1|apply Rabs_pos]|exact hr]|].
      apply Rle_trans with (10/9 * (3/2 * (Rabs G * Rr * B * (1/10000000 * Rr))) / B ^ 4).
      - unfold Rdiv. apply Rmult_le_compat_r; [apply Rlt_le, Rinv_0_lt_compat, pow_lt; lra|]. apply Rmult_le_compat_l; [lra|]. apply Rmult_le_compat_l; [lra|]. apply Rmult_le_compat; [apply Rmult_le_pos; [auto|apply Rabs_pos]|lra|apply Rmult_le_compat_l; lra|lra].
      - replace (10/9 * (3/2 * (Rabs G * Rr * B * (1/10000000 * Rr))) / B ^ 4) with (5/3 / 10000000 * (Rabs G * Rr ^ 2) * / B ^ 3) by (field; lra).
        replace (2 / 10000000 * Rabs G / Rr) with (2 / 10000000 * (Rabs G * Rr ^ 2) * / Rr ^ 3) by (field; lra).
        assert (0 <= Rabs G * Rr ^ 2) by (apply Rmult_le_pos; [auto|apply pow_le; lra]). apply Rmult_le_compat; [lra|apply Rlt_le, Rinv_0_lt_compat, pow_lt; lra|lra|apply IB]. }
    assert (KZ : Rabs (Wz G Rr r z - G * Rr ^ 2 / (2 * B ^ 3)) <= 2 / 10000000 * Rabs G / Rr).
    { assert (RR : r ^ 2 <= (1/10000000 * Rr) ^ 2) by (apply pow_incr; lra).
      eapply Rle_trans; [eapply K; [|exact A3|exact P5|apply pow_lt; lra]; apply Rmult_le_pos; [lra|]; apply Rmult_le_pos; [apply Rmult_le_pos; [exact G1|lra]|apply pow_le; exact hr]|].
      apply Rle_trans with (10/9 * (9/2 * (Rabs G * Rr * B * (1/10000000 * Rr) ^ 2)) / B ^ 5).
      - unfold Rdiv. apply Rmult_le_compat_r; [apply Rlt_le, Rinv_0_lt_compat, pow_lt; lra|]. apply Rmult_le_compat_l; [lra|]. apply Rmult_le_compat_l; [lra|]. apply Rmult_le_compat_l; [apply Rmult_le_pos; lra|exact RR].
      - replace (10/9 * (9/2 * (Rabs G * Rr * B * (1/10000000 * Rr) ^ 2)) / B ^ 5) with (5 / 10000000 / 10000000 * (Rabs G * Rr ^ 3) * / B ^ 4) by (field; lra).
        replace (2 / 10000000 * Rabs G / Rr) with (2 / 10000000 * (Rabs G * Rr ^ 3) * / Rr ^ 4) by (field; lra).
        assert (0 <= Rabs G * Rr ^ 3) by (apply Rmult_le_pos; [auto|apply pow_le; lra]). apply Rmult_le_compat; [lra|apply Rlt_le, Rinv_0_lt_compat, pow_lt; lra|lra|apply IB]. }
    pose proof (COS_bound (Ratan2 y x)). pose proof (SIN_bound (Ratan2 y x)).
    rewrite circR_W. split; [|split]; unfold px, py, pz; cbn [fst snd].
    + rewrite Rminus_0_l, Rabs_Ropp. eapply Rle_trans; [apply cs_le; apply Rabs_le; lra|exact KW].
    + rewrite Rminus_0_l, Rabs_Ropp. eapply Rle_trans; [apply cs_le; apply Rabs_le; lra|exact KW].
    + rewrite Rabs_minus_sym. exact KZ.
Qed.
