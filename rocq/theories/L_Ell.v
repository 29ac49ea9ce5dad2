(** * Complete elliptic integrals and integrals over the circle *)
From Coquelicot Require Import Coquelicot.
From Coq Require Import Reals Lra Psatz.
From Verif Require Import NumR L_Calc.
Local Open Scope R_scope.

(** carriers of Coquelicot's structures on R are convertible to R *)
Ltac eqR := match goal with |- @eq _ ?a ?b => change (@eq R a b) end.
Lemma RInt_val (f : R -> R) a b l : is_RInt f a b l -> RInt f a b = l.
Proof. apply (@is_RInt_unique R_CompleteNormedModule). Qed.
Lemma cont_is_RInt (f : R -> R) a b : (forall x, continuous f x) -> is_RInt f a b (RInt f a b).
Proof. intros H. apply (@RInt_correct R_CompleteNormedModule), (@ex_RInt_continuous R_CompleteNormedModule). intros; apply H. Qed.
Lemma cont_ex_RInt (f : R -> R) a b : (forall x, continuous f x) -> ex_RInt f a b.
Proof. intros H. apply (@ex_RInt_continuous R_CompleteNormedModule). intros; apply H. Qed.

Lemma RInt_swapR (f : R -> R) a b : (forall x, continuous f x) -> RInt f b a = - RInt f a b.
Proof. intros H. symmetry. apply (@opp_RInt_swap R_CompleteNormedModule). apply cont_ex_RInt; auto. Qed.
(** ** periodic integrands *)
Lemma is_RInt_lin (f : R -> R) u v a b l : is_RInt f (u * a + v) (u * b + v) l -> is_RInt (fun t => u * f (u * t + v)) a b l.
Proof. intros H. apply (is_RInt_comp_lin f u v a b l H). Qed.
Lemma RInt_shift (f : R -> R) v a b : (forall x, continuous f x) -> RInt (fun t => f (t + v)) a b = RInt f (a + v) (b + v).
Proof.
  intros H. apply RInt_val. assert (K := is_RInt_lin f 1 v a b (RInt f (1 * a + v) (1 * b + v)) (cont_is_RInt f _ _ H)).
  rewrite !Rmult_1_l in K. apply (is_RInt_ext _ _ _ _ _ (fun t _ => eq_trans (Rmult_1_l _) (f_equal (fun s => f (s + v)) (Rmult_1_l t))) K).
Qed.
Lemma RInt_periodic (f : R -> R) p v : (forall x, continuous f x) -> (forall x, f (x + p) = f x) ->
  RInt (fun t => f (t + v)) 0 p = RInt f 0 p.
Proof.
  intros H P. rewrite RInt_shift by auto.
  assert (C : forall a b c, RInt f a b + RInt f b c = RInt f a c).
  { intros. apply (RInt_Chasles f); apply cont_ex_RInt; auto. }
  assert (E : RInt f p (p + v) = RInt f 0 v).
  { transitivity (RInt (fun t => f (t + p)) 0 v).
    - rewrite RInt_shift by auto. f_equal; ring.
    - apply RInt_ext. intros; apply P. }
  rewrite Rplus_0_l. rewrite <- (C v 0 (p + v)), <- (C 0 p (p + v)), E.
  pose proof (C v 0 v) as C1. rewrite RInt_point in C1. change (RInt f v 0 + RInt f 0 v = 0) in C1. lra.
Qed.
Lemma RInt_reflect (f : R -> R) c a b : (forall x, continuous f x) -> RInt (fun t => f (c - t)) a b = RInt f (c - b) (c - a).
Proof.
  intros H. apply RInt_val.
  assert (K := is_RInt_lin f (-1) c a b _ (cont_is_RInt f (-1 * a + c) (-1 * b + c) H)).
  apply (is_RInt_scal _ _ _ (-1)) in K.
  replace (RInt f (c - b) (c - a)) with (scal (-1) (RInt f (-1 * a + c) (-1 * b + c))).
  - eapply is_RInt_ext; [|exact K]. intros x _. unfold scal; cbn; unfold mult; cbn. replace (-1 * x + c) with (c - x) by ring. ring.
  - pose proof (RInt_swapR f (c - a) (c - b) H) as SW.
    change (-1 * RInt f (-1 * a + c) (-1 * b + c) = RInt f (c - b) (c - a)).
    replace (-1 * a + c) with (c - a) by ring. replace (-1 * b + c) with (c - b) by ring. rewrite SW. ring.
Qed.
(** an integrand that is a function of [cos] *)
Lemma RInt_cos (h : R -> R) : (forall x, continuous (fun t => h (cos t)) x) ->
  RInt (fun t => h (cos t)) 0 (2 * PI) = 4 * RInt (fun t => h (2 * (sin t * sin t) - 1)) 0 (PI / 2).
Proof.
  intros H.
  assert (C : RInt (fun t => h (cos t)) 0 PI + RInt (fun t => h (cos t)) PI (2 * PI) = RInt (fun t => h (cos t)) 0 (2 * PI)).
  { apply (RInt_Chasles (fun t => h (cos t))); apply cont_ex_RInt; auto. }
  rewrite <- C.
  assert (E1 : RInt (fun t => h (cos t)) PI (2 * PI) = RInt (fun t => h (cos t)) 0 PI).
  { transitivity (RInt (fun t => (fun s => h (cos s)) (2 * PI - t)) 0 PI).
    - rewrite (RInt_reflect (fun s => h (cos s)) (2 * PI) 0 PI H). f_equal; ring.
    - apply RInt_ext. intros x _. f_equal. replace (2 * PI - x) with (- x + 2 * PI) by ring.
      rewrite <- (cos_neg x). rewrite <- (cos_period (- x) 1). f_equal. cbn. ring. }
  rewrite E1.
  assert (E2 : RInt (fun t => h (cos t)) 0 PI = 2 * RInt (fun t => h (2 * (sin t * sin t) - 1)) 0 (PI / 2)).
  { assert (K := is_RInt_lin (fun s => h (cos s)) (-2) PI 0 (PI/2) _ (cont_is_RInt _ (-2 * 0 + PI) (-2 * (PI/2) + PI) H)).
    replace (-2 * 0 + PI) with PI in K by ring. replace (-2 * (PI / 2) + PI) with 0 in K by field.
    assert (SW := RInt_swapR (fun s => h (cos s)) 0 PI H).
    change (RInt (fun t : R_UniformSpace => h (cos t)) PI 0) with (RInt (fun s : R => h (cos s)) PI 0) in K. rewrite SW in K.
    apply (is_RInt_scal _ _ _ (-/2)) in K. 
    apply is_RInt_ext with (g := fun t => h (2 * (sin t * sin t) - 1)) in K.
    - rewrite (RInt_val _ _ _ _ K). unfold scal; cbn; unfold mult; cbn. field.
    - intros x _. unfold scal; cbn; unfold mult; cbn.
      replace (cos (-2 * x + PI)) with (2 * (sin x * sin x) - 1); [field|].
      rewrite neg_cos. replace (-2 * x) with (- (2 * x)) by ring. rewrite cos_neg, cos_2a. pose proof (sin2_cos2 x) as S. unfold Rsqr in S. lra. }
  rewrite E2. eqR. ring.
Qed.

(** ** the modulus  1 - m sin^2 *)
Lemma sin_sq_le t : 0 <= sin t * sin t <= 1.
Proof. pose proof (sin2_cos2 t) as S. unfold Rsqr in S. pose proof (Rsq_pos (sin t)). pose proof (Rsq_pos (cos t)). lra. Qed.
Lemma dm_pos m t : m < 1 -> 0 < 1 - m * (sin t * sin t).
Proof. intros H. pose proof (sin_sq_le t). destruct (Rle_dec m 0); nra. Qed.
Lemma dm_cont m x : continuous (fun t => 1 - m * (sin t * sin t)) x.
Proof. apply (ex_derive_continuous (fun t => 1 - m * (sin t * sin t))). auto_derive. auto. Qed.
Lemma Kint_cont m x : m < 1 -> continuous (fun t => / sqrt (1 - m * (sin t * sin t))) x.
Proof.
  intros H. pose proof (dm_pos m x H). apply (ex_derive_continuous (fun t => / sqrt (1 - m * (sin t * sin t)))).
  auto_derive. split; [lra|]. split; [|auto]. apply Rgt_not_eq, sqrt_lt_R0. lra.
Qed.
Lemma Eint_cont m x : m < 1 -> continuous (fun t => sqrt (1 - m * (sin t * sin t))) x.
Proof.
  intros H. pose proof (dm_pos m x H). apply (ex_derive_continuous (fun t => sqrt (1 - m * (sin t * sin t)))).
  auto_derive. lra.
Qed.
Definition D3 (m t : R) : R := / ((1 - m * (sin t * sin t)) * sqrt (1 - m * (sin t * sin t))).
Lemma D3_cont m x : m < 1 -> continuous (D3 m) x.
Proof.
  intros H. pose proof (dm_pos m x H). assert (0 < sqrt (1 - m * (sin x * sin x))) by (apply sqrt_lt_R0; auto).
  apply (ex_derive_continuous (D3 m)). unfold D3.
  auto_derive. change (1 + - (m * (sin x * sin x))) with (1 - m * (sin x * sin x)). split; [lra|]. split; [|auto]. apply Rgt_not_eq, Rmult_lt_0_compat; lra.
Qed.
Lemma Kell_int m : m < 1 -> is_RInt (fun t => / sqrt (1 - m * (sin t * sin t))) 0 (PI/2) (Kell m).
Proof. intros. apply cont_is_RInt. intros; apply Kint_cont; auto. Qed.
Lemma Eell_int m : m < 1 -> is_RInt (fun t => sqrt (1 - m * (sin t * sin t))) 0 (PI/2) (Eell m).
Proof. intros. apply cont_is_RInt. intros; apply Eint_cont; auto. Qed.
(** the classical  int Delta^-3 = E/(1-m) *)
Lemma D3_int m : m < 1 -> is_RInt (D3 m) 0 (PI/2) (Eell m / (1 - m)).
Proof.
  intros H.
  assert (B : is_RInt (fun t => sqrt (1 - m * (sin t * sin t)) - (1 - m) * D3 m t) 0 (PI/2)
                (m * sin (PI/2) * cos (PI/2) / sqrt (1 - m * (sin (PI/2) * sin (PI/2))) - m * sin 0 * cos 0 / sqrt (1 - m * (sin 0 * sin 0)))).
  { apply (is_RInt_derive (fun t => m * sin t * cos t / sqrt (1 - m * (sin t * sin t)))).
    - intros t _. pose proof (dm_pos m t H) as P. assert (S : 0 < sqrt (1 - m * (sin t * sin t))) by (apply sqrt_lt_R0; auto).
      assert (SS : sqrt (1 - m * (sin t * sin t)) * sqrt (1 - m * (sin t * sin t)) = 1 - m * (sin t * sin t)) by (apply sqrt_sqrt; lra).
      unfold D3. auto_derive; change (1 + - (m * (sin t * sin t))) with (1 - m * (sin t * sin t)); [repeat split; lra|].
      set (w := sqrt (1 - m * (sin t * sin t))) in *. rewrite <- SS.
      assert (C2 : cos t * cos t = 1 - sin t * sin t) by (pose proof (sin2_cos2 t) as Q; unfold Rsqr in Q; lra).
      apply (Rmult_eq_reg_r (w * w * w)); [|apply Rgt_not_eq; apply Rmult_lt_0_compat; [apply Rmult_lt_0_compat|]; auto].
      field_simplify; try lra.
      replace (cos t ^ 2) with (1 - sin t * sin t) by (cbn; lra).
      replace (w ^ 4) with ((w * w) * (w * w)) by ring. replace (w ^ 2) with (w * w) by ring. rewrite SS. field.
    - intros t _. apply (continuous_minus (fun t => sqrt (1 - m * (sin t * sin t))) (fun t => (1 - m) * D3 m t)).
      + apply Eint_cont; auto.
      + apply (continuous_scal_r (1 - m) (D3 m)). apply D3_cont; auto. }
  rewrite cos_PI2, sin_0 in B. 
  assert (B0 : m * sin (PI / 2) * 0 / sqrt (1 - m * (sin (PI / 2) * sin (PI / 2))) - m * 0 * cos 0 / sqrt (1 - m * (0 * 0)) = 0).
  { unfold Rdiv. rewrite !Rmult_0_r, !Rmult_0_l. ring. }
  rewrite B0 in B. pose proof (cont_is_RInt (D3 m) 0 (PI/2) (fun x => D3_cont m x H)) as D.
  assert (E2 := is_RInt_minus _ _ _ _ _ _ (Eell_int m H) (is_RInt_scal _ _ _ (1 - m) _ D)).
  pose proof (is_RInt_unique _ _ _ _ B) as U1. pose proof (is_RInt_unique _ _ _ _ E2) as U2.
  assert (EQ : minus (Eell m) (scal (1 - m) (RInt (D3 m) 0 (PI / 2))) = 0).
  { etransitivity; [symmetry; exact U2|exact U1]. }
  change (Eell m + - ((1 - m) * RInt (D3 m) 0 (PI / 2)) = 0) in EQ.
  replace (Eell m / (1 - m)) with (RInt (D3 m) 0 (PI / 2)); auto.
  apply (Rmult_eq_reg_l (1 - m)); [|lra]. field_simplify; [|lra]. lra.
Qed.
Lemma Kell_pos m : m < 1 -> 0 < Kell m.
Proof.
  intros H. pose proof PI_RGT_0. unfold Kell. apply RInt_gt_0; [lra| |].
  - intros x _. apply Rinv_0_lt_compat, sqrt_lt_R0, dm_pos; auto.
  - intros x _. apply Kint_cont; auto.
Qed.
Lemma Eell_pos m : m < 1 -> 0 < Eell m.
Proof.
  intros H. pose proof PI_RGT_0. unfold Eell. apply RInt_gt_0; [lra| |].
  - intros x _. apply sqrt_lt_R0, dm_pos; auto.
  - intros x _. apply Eint_cont; auto.
Qed.
Lemma Kell_0 : Kell 0 = PI / 2.
Proof.
  unfold Kell. rewrite (RInt_ext _ (fun _ => 1)).
  - rewrite RInt_const. unfold scal; cbn; unfold mult; cbn. ring.
  - intros. rewrite Rmult_0_l, Rminus_0_r, sqrt_1. eqR; field.
Qed.
Lemma Eell_0 : Eell 0 = PI / 2.
Proof.
  unfold Eell. rewrite (RInt_ext _ (fun _ => 1)).
  - rewrite RInt_const. unfold scal; cbn; unfold mult; cbn. ring.
  - intros. rewrite Rmult_0_l, Rminus_0_r, sqrt_1. reflexivity.
Qed.
(** E >= sqrt(1-m) K : pointwise  Delta + (1-m)/Delta^3 >= 2 sqrt(1-m)/Delta *)
Lemma EK_le m : m < 1 -> sqrt (1 - m) * Kell m <= Eell m.
Proof.
  intros H. pose proof PI_RGT_0 as HP.
  assert (I1 := is_RInt_plus _ _ _ _ _ _ (Eell_int m H) (is_RInt_scal _ _ _ (1 - m) _ (D3_int m H))).
  assert (I2 := is_RInt_scal _ _ _ (2 * sqrt (1 - m)) _ (Kell_int m H)).
  assert (L : 2 * sqrt (1 - m) * Kell m <= Eell m + (1 - m) * (Eell m / (1 - m))).
  { apply (is_RInt_le _ _ 0 (PI/2) _ _ ltac:(lra) I2 I1). intros t _.
    unfold plus, scal; cbn; unfold mult; cbn. unfold D3.
    pose proof (dm_pos m t H) as P. set (d := 1 - m * (sin t * sin t)) in *.
    assert (S : 0 < sqrt d) by (apply sqrt_lt_R0; auto). assert (SS : sqrt d * sqrt d = d) by (apply sqrt_sqrt; lra).
    assert (Q : sqrt (1 - m) * sqrt (1 - m) = 1 - m) by (apply sqrt_sqrt; lra).
    set (w := sqrt d) in *. set (q := sqrt (1 - m)) in *. rewrite <- SS, <- Q.
    assert (0 <= (w - q / w) * (w - q / w) / w) by (apply Rdiv_le_0_compat; [apply Rsq_pos|auto]).
    replace (w + q * q * / (w * w * w)) with (2 * q * / w + (w - q / w) * (w - q / w) / w) by (field; lra). lra. }
  replace ((1 - m) * (Eell m / (1 - m))) with (Eell m) in L by (field; lra). lra.
Qed.

(** ** the two integrals of the ring *)
Section Ring.
  Variables r Rr z : R.
  Hypothesis off : 0 < (r - Rr) * (r - Rr) + z * z.
  Hypothesis hr : 0 <= r.
  Hypothesis hR : 0 < Rr.
  Definition a2 : R := (r + Rr) * (r + Rr) + z * z.
  Definition mm : R := 4 * r * Rr / a2.
  (** squared distance to the point of the ring at relative azimuth [t] *)
  Definition dd (t : R) : R := r * r + Rr * Rr + z * z - 2 * r * Rr * cos t.
  Lemma rR_pos : 0 <= r * Rr.
  Proof. apply Rmult_le_pos; lra. Qed.
  Lemma a2_pos : 0 < a2.
  Proof. unfold a2. pose proof rR_pos. replace ((r + Rr) * (r + Rr)) with ((r - Rr) * (r - Rr) + 4 * (r * Rr)) by ring. lra. Qed.
  Lemma one_mm : 1 - mm = ((r - Rr) * (r - Rr) + z * z) / a2.
  Proof. unfold mm. pose proof a2_pos. unfold a2 in *. field. lra. Qed.
  Lemma mm_lt : mm < 1.
  Proof. pose proof one_mm. pose proof a2_pos. assert (0 < ((r - Rr) * (r - Rr) + z * z) / a2) by (apply Rdiv_lt_0_compat; auto). lra. Qed.
  Lemma mm_ge : 0 <= mm.
  Proof. unfold mm. apply Rdiv_le_0_compat; [|apply a2_pos]. pose proof rR_pos. nra. Qed.
  Lemma dd_pos t : 0 < dd t.
  Proof.
    unfold dd. pose proof rR_pos. pose proof (COS_bound t).
    assert (r * Rr * cos t <= r * Rr * 1) by (apply Rmult_le_compat_l; lra).
    replace (r * r + Rr * Rr + z * z - 2 * r * Rr * cos t) with ((r - Rr) * (r - Rr) + z * z + 2 * (r * Rr * 1 - r * Rr * cos t)) by ring. lra.
  Qed.
  Lemma dd_half t : r * r + Rr * Rr + z * z - 2 * r * Rr * (2 * (sin t * sin t) - 1) = a2 * (1 - mm * (sin t * sin t)).
  Proof. unfold mm. pose proof a2_pos. unfold a2 in *. field. lra. Qed.
  Lemma dd_cont1 x : continuous (fun t => / sqrt (dd t)) x.
  Proof.
    pose proof (dd_pos x). apply (ex_derive_continuous (fun t => / sqrt (dd t))). unfold dd in *.
    auto_derive. split; [lra|]. split; [|auto]. apply Rgt_not_eq, sqrt_lt_R0. lra.
  Qed.
  Lemma dd_cont3 x : continuous (fun t => / (dd t * sqrt (dd t))) x.
  Proof.
    pose proof (dd_pos x). apply (ex_derive_continuous (fun t => / (dd t * sqrt (dd t)))). unfold dd in *.
    auto_derive. assert (0 < sqrt (r * r + Rr * Rr + z * z + - (2 * r * Rr * cos x))) by (apply sqrt_lt_R0; lra).
    split; [lra|]. split; [|auto]. apply Rgt_not_eq, Rmult_lt_0_compat; lra.
  Qed.
  Definition II1 : R := 4 / sqrt a2 * Kell mm.
  Definition II2 : R := 4 / (a2 * sqrt a2) * (Eell mm / (1 - mm)).
  Lemma int1 : is_RInt (fun t => / sqrt (dd t)) 0 (2 * PI) II1.
  Proof.
    replace II1 with (RInt (fun t => / sqrt (dd t)) 0 (2 * PI)); [apply cont_is_RInt; apply dd_cont1|].
    unfold dd. rewrite (RInt_cos (fun c => / sqrt (r * r + Rr * Rr + z * z - 2 * r * Rr * c))) by (apply dd_cont1).
    pose proof a2_pos as A. assert (SA : 0 < sqrt a2) by (apply sqrt_lt_R0; auto).
    assert (K := is_RInt_scal _ _ _ (/ sqrt a2) _ (Kell_int mm mm_lt)).
    rewrite (RInt_val _ _ _ (/ sqrt a2 * Kell mm)).
    - unfold II1. eqR; field. lra.
    - eapply is_RInt_ext; [|exact K]. intros t _. unfold scal; cbn; unfold mult; cbn.
      rewrite dd_half. rewrite sqrt_mult by (try (pose proof (dm_pos mm t mm_lt)); lra).
      assert (0 < sqrt (1 - mm * (sin t * sin t))) by (apply sqrt_lt_R0, dm_pos, mm_lt). field. split; lra.
  Qed.
  Lemma int2 : is_RInt (fun t => / (dd t * sqrt (dd t))) 0 (2 * PI) II2.
  Proof.
    replace II2 with (RInt (fun t => / (dd t * sqrt (dd t))) 0 (2 * PI)); [apply cont_is_RInt; apply dd_cont3|].
    unfold dd. rewrite (RInt_cos (fun c => / ((r * r + Rr * Rr + z * z - 2 * r * Rr * c) * sqrt (r * r + Rr * Rr + z * z - 2 * r * Rr * c)))) by (apply dd_cont3).
    pose proof a2_pos as A. assert (SA : 0 < sqrt a2) by (apply sqrt_lt_R0; auto).
    assert (K := is_RInt_scal _ _ _ (/ (a2 * sqrt a2)) _ (D3_int mm mm_lt)).
    rewrite (RInt_val _ _ _ (/ (a2 * sqrt a2) * (Eell mm / (1 - mm)))).
    - unfold II2. eqR. pose proof mm_lt. field. repeat split; lra.
    - eapply is_RInt_ext; [|exact K]. intros t _. unfold scal; cbn; unfold mult; cbn. unfold D3.
      rewrite dd_half. rewrite sqrt_mult by (try (pose proof (dm_pos mm t mm_lt)); lra).
      pose proof (dm_pos mm t mm_lt).
      assert (0 < sqrt (1 - mm * (sin t * sin t))) by (apply sqrt_lt_R0; auto). field. repeat split; lra.
  Qed.
  (** int sin/d^3 = 0 : the azimuthal velocity vanishes *)
  Lemma int_sin : is_RInt (fun t => sin t * / (dd t * sqrt (dd t))) 0 (2 * PI) 0.
  Proof.
    destruct hr as [H|H].
    - assert (B : is_RInt (fun t => sin t * / (dd t * sqrt (dd t))) 0 (2 * PI)
         (- / (r * Rr) * / sqrt (dd (2 * PI)) - - / (r * Rr) * / sqrt (dd 0))).
      { pose proof (Rmult_lt_0_compat r Rr H hR) as P.
        apply (is_RInt_derive (fun t => - / (r * Rr) * / sqrt (dd t))).
        - intros t _. pose proof (dd_pos t) as Q. assert (S : 0 < sqrt (dd t)) by (apply sqrt_lt_R0; auto).
          assert (SS : sqrt (dd t) * sqrt (dd t) = dd t) by (apply sqrt_sqrt; lra).
          unfold dd in *. auto_derive; change (r * r + Rr * Rr + z * z + - (2 * r * Rr * cos t)) with (r * r + Rr * Rr + z * z - 2 * r * Rr * cos t).
          + repeat split; lra.
          + set (w := sqrt (r * r + Rr * Rr + z * z - 2 * r * Rr * cos t)) in *. rewrite <- SS. field. repeat split; lra.
        - intros t _. apply (continuous_mult sin (fun t => / (dd t * sqrt (dd t)))); [|apply dd_cont3].
          apply (ex_derive_continuous sin). auto_derive. auto. }
      replace (dd (2 * PI)) with (dd 0) in B by (unfold dd; rewrite cos_2PI, cos_0; reflexivity).
      rewrite Rminus_eq_0 in B. exact B.
    - assert (E : forall t, dd t = dd 0) by (intros; unfold dd; rewrite <- H; ring).
      apply is_RInt_ext with (fun t => / (dd 0 * sqrt (dd 0)) * sin t); [intros t _; rewrite (E t); eqR; ring|].
      replace 0 with (scal (/ (dd 0 * sqrt (dd 0))) ((- cos (2 * PI)) - (- cos 0))) at 2.
      + apply (is_RInt_scal sin). apply (is_RInt_derive (fun t => - cos t) sin).
        * intros. auto_derive; auto. ring.
        * intros. apply (ex_derive_continuous sin). auto_derive. auto.
      + rewrite cos_2PI, cos_0. unfold scal; cbn; unfold mult; cbn. ring.
  Qed.
End Ring.
