(** * Integrals over the circumference of a straight vortex cylinder *)
From Coquelicot Require Import Coquelicot.
From Coq Require Import Reals Lra Psatz.
From Verif Require Import NumR L_Calc L_Ell Spec SpecBS.
Local Open Scope R_scope.

Ltac rsc := unfold scal; cbn; unfold mult; cbn.

(** ** int_0^{pi/2} dt/(1-n sin^2 t) = pi/(2 sqrt(1-n)) *)
Lemma pois_half n : n < 1 -> is_RInt (fun t => / (1 - n * (sin t * sin t))) 0 (PI/2) (PI / (2 * sqrt (1 - n))).
Proof.
  intros Hn. set (k := sqrt (1 - n)). assert (Hk : 0 < k) by (apply sqrt_lt_R0; lra).
  assert (KK : k * k = 1 - n) by (apply sqrt_sqrt; lra).
  assert (P : forall t, 0 < cos t * cos t + k * (sin t * sin t)).
  { intros t. pose proof (sin2_cos2 t) as S. unfold Rsqr in S. pose proof (Rsq_pos (cos t)). pose proof (Rsq_pos (sin t)).
    destruct (Req_dec (sin t * sin t) 0) as [E|E]; [rewrite E in *; lra|]. assert (0 < k * (sin t * sin t)) by (apply Rmult_lt_0_compat; lra). lra. }
  pose (F := fun t => (t + atan ((k - 1) * (sin t * cos t) / (cos t * cos t + k * (sin t * sin t)))) / k).
  replace (PI / (2 * k)) with (F (PI/2) - F 0).
  - apply (is_RInt_derive F).
    + intros t _. pose proof (P t) as Pt. pose proof (dm_pos n t Hn) as D. pose proof (sin2_cos2 t) as S. unfold Rsqr in S.
      unfold F. auto_derive; [repeat split; lra|].
      set (s := sin t) in *. set (c := cos t) in *.
      assert (Q1 : 1 + ((k - 1) * (s * c) / (c * c + k * (s * s))) ^ 2 = (1 - n * (s * s)) / (c * c + k * (s * s)) ^ 2).
      { assert (EQ : (c * c + k * (s * s)) ^ 2 + ((k - 1) * (s * c)) ^ 2 = (c * c + k * k * (s * s)) * (s * s + c * c)) by ring.
        rewrite S, KK, Rmult_1_r in EQ. assert (EQ2 : 1 - n * (s * s) = (c * c + k * (s * s)) ^ 2 + ((k - 1) * (s * c)) ^ 2) by (rewrite EQ; lra). rewrite EQ2. field. lra. }
      set (W := c * c + k * (s * s)) in *.
      replace ((k - 1) * (s * c) * / W * ((k - 1) * (s * c) * / W * 1)) with (((k - 1) * (s * c) / W) ^ 2) by (field; lra).
      rewrite Q1.
      assert (NM : (1 - n * (s * s)) + (k - 1) * ((c * c - s * s) * W - 2 * (k - 1) * (s * s) * (c * c)) = k).
      { assert (E1 : (c * c - s * s) * W - 2 * (k - 1) * (s * s) * (c * c) = (c * c - k * (s * s)) * (s * s + c * c)) by (unfold W; ring).
        rewrite E1, S. replace (1 - n * (s * s)) with (s * s + c * c - (1 - k * k) * (s * s)) by (rewrite S, KK; ring).
        transitivity (k * (s * s + c * c)); [ring|rewrite S; ring]. }
      match goal with |- ?L = _ => replace L with (((1 - n * (s * s)) + (k - 1) * ((c * c - s * s) * W - 2 * (k - 1) * (s * s) * (c * c))) / (k * (1 - n * (s * s)))) by (field; repeat split; lra) end.
      rewrite NM. field. split; lra.
    + intros t _. pose proof (dm_pos n t Hn). apply (ex_derive_continuous (fun t => / (1 - n * (sin t * sin t)))). auto_derive. lra.
  - unfold F. rewrite sin_PI2, cos_PI2, sin_0, cos_0.
    replace ((k - 1) * (1 * 0) / (0 * 0 + k * (1 * 1))) with 0 by (field; lra).
    replace ((k - 1) * (0 * 1) / (1 * 1 + k * (0 * 0))) with 0 by (field; lra). rewrite atan_0. field. lra.
Qed.

(** ** the integrals of the cylinder: [r <> Rr] *)
Section Cyl.
  Variables r Rr z : R.
  Hypothesis hr : 0 <= r.
  Hypothesis hR : 0 < Rr.
  Hypothesis ne : r <> Rr.
  Let off0 : 0 < (r - Rr) * (r - Rr) + 0 * 0.
  Proof. pose proof (Rsq_lt (r - Rr) ltac:(lra)). lra. Qed.
  Let off : 0 < (r - Rr) * (r - Rr) + z * z.
  Proof. pose proof (Rsq_lt (r - Rr) ltac:(lra)). pose proof (Rsq_pos z). lra. Qed.
  Definition da (t : R) : R := dd r Rr 0 t.
  Definition nn : R := 4 * r * Rr / ((r + Rr) * (r + Rr)).
  Lemma nn_mm : nn = mm r Rr 0.
  Proof. unfold nn, mm, a2. f_equal. ring. Qed.
  Lemma nn_lt : nn < 1.
  Proof. rewrite nn_mm. apply mm_lt; auto. Qed.
  Lemma one_nn : 1 - nn = (r - Rr) * (r - Rr) / ((r + Rr) * (r + Rr)).
  Proof. rewrite nn_mm, one_mm by auto. unfold a2. f_equal; ring. Qed.
  Lemma int0 : is_RInt (fun t => / da t) 0 (2 * PI) (2 * PI / (Rabs (r - Rr) * (r + Rr))).
  Proof.
    assert (Cd : forall x, continuous (fun t => / da t) x).
    { intros x. pose proof (dd_pos r Rr 0 off0 hr hR x). apply (ex_derive_continuous (fun t => / da t)). unfold da, dd in *. auto_derive. lra. }
    match goal with |- is_RInt _ _ _ ?v => replace v with (RInt (fun t => / da t) 0 (2 * PI)) end; [apply cont_is_RInt; auto|].
    unfold da, dd. rewrite (RInt_cos (fun c => / (r * r + Rr * Rr + 0 * 0 - 2 * r * Rr * c))) by (exact Cd).
    pose proof (a2_pos r Rr 0 off0 hr hR) as A.
    assert (K := is_RInt_scal _ _ _ (/ (a2 r Rr 0)) _ (pois_half nn nn_lt)).
    rewrite (RInt_val _ _ _ (/ a2 r Rr 0 * (PI / (2 * sqrt (1 - nn))))).
    - rewrite one_nn. assert (0 < Rabs (r - Rr)) by (apply Rabs_pos_lt; lra).
      replace ((r - Rr) * (r - Rr) / ((r + Rr) * (r + Rr))) with ((Rabs (r - Rr) / (r + Rr)) * (Rabs (r - Rr) / (r + Rr))).
      + rewrite sqrt_square by (apply Rlt_le, Rdiv_lt_0_compat; lra). replace (a2 r Rr 0) with ((r + Rr) * (r + Rr)) by (unfold a2; ring). eqR. field. repeat split; lra.
      + replace (Rabs (r - Rr) / (r + Rr) * (Rabs (r - Rr) / (r + Rr))) with (Rabs (r - Rr) * Rabs (r - Rr) / ((r + Rr) * (r + Rr))) by (field; lra).
        rewrite <- Rabs_mult, Rabs_pos_eq by (apply Rlt_le, Rsq_lt; lra). reflexivity.
    - eapply is_RInt_ext; [|exact K]. intros t _. rsc. pose proof (dm_pos nn t nn_lt). rewrite dd_half by auto. rewrite <- nn_mm. field. lra.
  Qed.
  Lemma Pi_cont n m x : n < 1 -> m < 1 -> continuous (fun t => / ((1 - n * (sin t * sin t)) * sqrt (1 - m * (sin t * sin t)))) x.
  Proof.
    intros Hn Hm. pose proof (dm_pos n x Hn). pose proof (dm_pos m x Hm) as D. assert (0 < sqrt (1 - m * (sin x * sin x))) by (apply sqrt_lt_R0; auto).
    apply (ex_derive_continuous (fun t => / ((1 - n * (sin t * sin t)) * sqrt (1 - m * (sin t * sin t))))). auto_derive.
    split; [lra|]. split; [|auto]. apply Rgt_not_eq, Rmult_lt_0_compat; auto.
  Qed.
  Lemma Piell_int n m : n < 1 -> m < 1 -> is_RInt (fun t => / ((1 - n * (sin t * sin t)) * sqrt (1 - m * (sin t * sin t)))) 0 (PI/2) (Piell n m).
  Proof. intros Hn Hm. apply cont_is_RInt. intros. apply Pi_cont; auto. Qed.
  Definition II3 : R := 4 / ((r + Rr) * (r + Rr) * sqrt (a2 r Rr z)) * Piell nn (mm r Rr z).
  Lemma dacont x : continuous (fun t => / (da t * sqrt (dd r Rr z t))) x.
  Proof.
    pose proof (dd_pos r Rr 0 off0 hr hR x). pose proof (dd_pos r Rr z off hr hR x). apply (ex_derive_continuous (fun t => / (da t * sqrt (dd r Rr z t)))). unfold da, dd in *.
    auto_derive. assert (0 < sqrt (r * r + Rr * Rr + z * z + - (2 * r * Rr * cos x))) by (apply sqrt_lt_R0; lra).
    split; [lra|]. split; [|auto]. apply Rgt_not_eq, Rmult_lt_0_compat; lra.
  Qed.
  Lemma int3 : is_RInt (fun t => / (da t * sqrt (dd r Rr z t))) 0 (2 * PI) II3.
  Proof.
    replace II3 with (RInt (fun t => / (da t * sqrt (dd r Rr z t))) 0 (2 * PI)); [apply cont_is_RInt; apply dacont|].
    unfold da, dd. rewrite (RInt_cos (fun c => / ((r * r + Rr * Rr + 0 * 0 - 2 * r * Rr * c) * sqrt (r * r + Rr * Rr + z * z - 2 * r * Rr * c)))) by (apply dacont).
    pose proof (a2_pos r Rr z off hr hR) as A. pose proof (a2_pos r Rr 0 off0 hr hR) as A0. assert (SA : 0 < sqrt (a2 r Rr z)) by (apply sqrt_lt_R0; auto).
    pose proof (mm_lt r Rr z off hr hR) as HM.
    assert (K := is_RInt_scal _ _ _ (/ (a2 r Rr 0 * sqrt (a2 r Rr z))) _ (Piell_int nn (mm r Rr z) nn_lt HM)).
    rewrite (RInt_val _ _ _ (/ (a2 r Rr 0 * sqrt (a2 r Rr z)) * Piell nn (mm r Rr z))).
    - unfold II3. replace ((r + Rr) * (r + Rr)) with (a2 r Rr 0) by (unfold a2; ring). eqR. field. split; lra.
    - eapply is_RInt_ext; [|exact K]. intros t _. rsc.
      rewrite !dd_half by auto. rewrite <- nn_mm. pose proof (dm_pos nn t nn_lt). pose proof (dm_pos _ t HM). rewrite sqrt_mult by lra.
      assert (0 < sqrt (1 - mm r Rr z * (sin t * sin t))) by (apply sqrt_lt_R0; auto). field. repeat split; lra.
  Qed.
End Cyl.
(** ** int cos/d  and int sin/d; these hold on the sheet's extension too *)
Section Cos.
  Variables r Rr z : R.
  Hypothesis off : 0 < (r - Rr) * (r - Rr) + z * z.
  Hypothesis hr : 0 <= r.
  Hypothesis hR : 0 < Rr.
  Lemma int_sqrt : is_RInt (fun t => sqrt (dd r Rr z t)) 0 (2 * PI) (4 * sqrt (a2 r Rr z) * Eell (mm r Rr z)).
  Proof.
    assert (Cd : forall x, continuous (fun t => sqrt (dd r Rr z t)) x).
    { intros x. pose proof (dd_pos r Rr z off hr hR x). apply (ex_derive_continuous (fun t => sqrt (dd r Rr z t))). unfold dd in *. auto_derive. lra. }
    match goal with |- is_RInt _ _ _ ?v => replace v with (RInt (fun t => sqrt (dd r Rr z t)) 0 (2 * PI)) end; [apply cont_is_RInt; auto|].
    unfold dd. rewrite (RInt_cos (fun c => sqrt (r * r + Rr * Rr + z * z - 2 * r * Rr * c))) by (exact Cd).
    pose proof (a2_pos r Rr z off hr hR) as A. pose proof (mm_lt r Rr z off hr hR) as HM.
    assert (K := is_RInt_scal _ _ _ (sqrt (a2 r Rr z)) _ (Eell_int _ HM)).
    rewrite (RInt_val _ _ _ (sqrt (a2 r Rr z) * Eell (mm r Rr z))).
    - eqR. ring.
    - eapply is_RInt_ext; [|exact K]. intros t _. rsc. rewrite dd_half by auto. pose proof (dm_pos _ t HM). rewrite sqrt_mult by lra. reflexivity.
  Qed.
  Lemma dd_per t : dd r Rr z (t + 2 * PI) = dd r Rr z t.
  Proof. unfold dd. rewrite <- (cos_period t 1). cbn [INR]. replace (t + 2 * 1 * PI) with (t + 2 * PI) by ring. reflexivity. Qed.
  Definition JJ : R := if Req_EM_T r 0 then 0 else ((r * r + Rr * Rr + z * z) * II1 r Rr z - 4 * sqrt (a2 r Rr z) * Eell (mm r Rr z)) / (2 * r * Rr).
  Lemma JJ_int : is_RInt (fun t => cos t * / sqrt (dd r Rr z t)) 0 (2 * PI) JJ.
  Proof.
    unfold JJ. destruct (Req_EM_T r 0) as [E|E].
    - assert (ED : forall t, dd r Rr z t = dd r Rr z 0) by (intros; unfold dd; rewrite E, !Rmult_0_r, !Rmult_0_l; reflexivity).
      apply is_RInt_ext with (fun t => / sqrt (dd r Rr z 0) * cos t); [intros t _; rewrite (ED t); eqR; ring|].
      match goal with |- is_RInt ?f ?a ?b ?v => replace (is_RInt f a b v) with (is_RInt f a b (scal (/ sqrt (dd r Rr z 0)) (sin (2 * PI) - sin 0))); [|f_equal] end.
      + apply (is_RInt_scal cos). apply (is_RInt_derive sin cos).
        * intros. auto_derive; auto. ring.
        * intros. apply (ex_derive_continuous cos). auto_derive. auto.
      + rewrite sin_2PI, sin_0. change (/ sqrt (dd r Rr z 0) * (0 - 0) = 0). ring.
    - assert (K := is_RInt_scal _ _ _ (/ (2 * r * Rr)) _ (is_RInt_minus _ _ _ _ _ _
         (is_RInt_scal _ _ _ (r * r + Rr * Rr + z * z) _ (int1 r Rr z off hr hR)) int_sqrt)).
      match goal with |- is_RInt _ _ _ ?v => replace v with (/ (2 * r * Rr) * ((r * r + Rr * Rr + z * z) * II1 r Rr z + - (4 * sqrt (a2 r Rr z) * Eell (mm r Rr z)))) end.
      2: { field. lra. }
      eapply is_RInt_ext; [|exact K]. intros t _.
      match goal with |- ?a = ?b => change (/ (2 * r * Rr) * ((r * r + Rr * Rr + z * z) * / sqrt (dd r Rr z t) + - sqrt (dd r Rr z t)) = cos t * / sqrt (dd r Rr z t)) end.
      pose proof (dd_pos r Rr z off hr hR t) as DP. assert (0 < sqrt (dd r Rr z t)) by (apply sqrt_lt_R0; auto).
      assert (SS : sqrt (dd r Rr z t) * sqrt (dd r Rr z t) = dd r Rr z t) by (apply sqrt_sqrt; lra).
      apply (Rmult_eq_reg_r (2 * r * Rr * sqrt (dd r Rr z t))).
      + transitivity (r * r + Rr * Rr + z * z - sqrt (dd r Rr z t) * sqrt (dd r Rr z t)); [field; repeat split; lra|].
        rewrite SS. transitivity (cos t * 2 * r * Rr); [unfold dd; ring|field; lra].
      + apply Rmult_integral_contrapositive_currified; [apply Rmult_integral_contrapositive_currified; lra|lra].
  Qed.
  Lemma int_sin1 : is_RInt (fun t => sin t * / sqrt (dd r Rr z t)) 0 (2 * PI) 0.
  Proof.
    destruct hr as [H|H].
    - assert (B : is_RInt (fun t => sin t * / sqrt (dd r Rr z t)) 0 (2 * PI) (/ (r * Rr) * sqrt (dd r Rr z (2 * PI)) - / (r * Rr) * sqrt (dd r Rr z 0))).
      { pose proof (Rmult_lt_0_compat r Rr H hR) as P.
        apply (is_RInt_derive (fun t => / (r * Rr) * sqrt (dd r Rr z t))).
        - intros t _. pose proof (dd_pos r Rr z off hr hR t) as Q. assert (S : 0 < sqrt (dd r Rr z t)) by (apply sqrt_lt_R0; auto).
          unfold dd in *. auto_derive; change (r * r + Rr * Rr + z * z + - (2 * r * Rr * cos t)) with (r * r + Rr * Rr + z * z - 2 * r * Rr * cos t).
          + repeat split; lra.
          + field. repeat split; lra.
        - intros t _. apply (continuous_mult sin (fun t => / sqrt (dd r Rr z t))); [|apply dd_cont1; auto].
          apply (ex_derive_continuous sin). auto_derive. auto. }
      replace (dd r Rr z (2 * PI)) with (dd r Rr z 0) in B by (unfold dd; rewrite cos_2PI, cos_0; reflexivity).
      rewrite Rminus_eq_0 in B. exact B.
    - assert (E : forall t, dd r Rr z t = dd r Rr z 0) by (intros; unfold dd; rewrite <- H; ring).
      apply is_RInt_ext with (fun t => / sqrt (dd r Rr z 0) * sin t); [intros t _; rewrite (E t); eqR; ring|].
      match goal with |- is_RInt ?f ?a ?b ?v => replace (is_RInt f a b v) with (is_RInt f a b (scal (/ sqrt (dd r Rr z 0)) ((- cos (2 * PI)) - (- cos 0)))); [|f_equal] end.
      + apply (is_RInt_scal sin). apply (is_RInt_derive (fun t => - cos t) sin).
        * intros. auto_derive; auto. ring.
        * intros. apply (ex_derive_continuous sin). auto_derive. auto.
      + rewrite cos_2PI, cos_0. rsc. ring.
  Qed.
End Cos.
