(** * Carlson's integrals: existence (trigonometric form), Legendre form, bounds *)
From Coquelicot Require Import Coquelicot.
From Coq Require Import Reals Lra Psatz.
From Verif Require Import NumR Spec SpecBS L_Calc L_Gen L_Dupl L_Ell.
Local Open Scope R_scope.

(** a proper integral as a limit of both bounds *)
Lemma proper_gen (g : R -> R) (a b : R) : (forall t, continuous g t) ->
  is_RInt_gen g (at_left b) (at_right a) (- RInt g a b).
Proof.
  intros HC P HP. unfold filtermapi. set (F := (fun t => RInt g a t) : R -> R).
  assert (HF : forall t, is_derive F t (g t)).
  { intros t. apply (is_derive_RInt g F a); [|apply HC]. apply filter_forall. intros s. apply (cont_is_RInt g a s). auto. }
  assert (CF : forall t, continuous F t) by (intros t; apply (ex_derive_continuous (K := R_AbsRing) (V := R_NormedModule)); exists (g t); apply HF).
  assert (LM : filterlim (fun ab => minus (F (snd ab)) (F (fst ab))) (filter_prod (at_left b) (at_right a)) (locally (- RInt g a b))).
  { replace (- RInt g a b) with (plus (F a) (opp (F b))) by (unfold F; rewrite RInt_point; cbn; unfold zero; cbn; ring).
    apply (filterlim_comp_2 (G := locally (F a)) (H := locally (opp (F b))) (F := filter_prod (at_left b) (at_right a)) (fun ab => F (snd ab)) (fun ab => opp (F (fst ab))) plus).
    - apply (filterlim_comp _ _ _ snd F _ (at_right a)); [apply filterlim_snd|apply lim_right; auto].
    - apply (filterlim_comp _ _ _ (fun ab => F (fst ab)) opp _ (locally (F b))); [apply (filterlim_comp _ _ _ fst F _ (at_left b)); [apply filterlim_fst|apply lim_left; auto]|apply (filterlim_opp (V := R_NormedModule) (F b))].
    - apply (filterlim_plus (V := R_NormedModule) (F a) (opp (F b))). }
  assert (FP : Filter (filter_prod (at_left b) (at_right a))) by typeclasses eauto.
  pose proof (LM P HP) as K. unfold filtermap in K. revert K. apply filter_imp. intros [s t] H. cbn [fst snd] in *.
  eexists. split; [|exact H]. apply (is_RInt_derive F g); auto.
Qed.
(** t = z cot^2(theta) *)
Definition cot_th (z t : R) : R := atan (sqrt z / sqrt t).
Lemma cot_cos z t : 0 < z -> 0 < t -> cos (cot_th z t) = sqrt t / sqrt (t + z).
Proof.
  intros hz ht. unfold cot_th. rewrite cos_atan. pose proof (sqrt_lt_R0 z hz) as sz. pose proof (sqrt_lt_R0 t ht) as st.
  assert (E : 1 + (sqrt z / sqrt t)² = (t + z) / t).
  { unfold Rsqr. replace (sqrt z / sqrt t * (sqrt z / sqrt t)) with ((sqrt z * sqrt z) / (sqrt t * sqrt t)) by (field; lra).
    rewrite !sqrt_sqrt by lra. field. lra. }
  rewrite E, sqrt_div_alt by lra. assert (0 < sqrt (t + z)) by (apply sqrt_lt_R0; lra). field. lra.
Qed.
Lemma cot_sin z t : 0 < z -> 0 < t -> sin (cot_th z t) = sqrt z / sqrt (t + z).
Proof.
  intros hz ht. unfold cot_th. rewrite sin_atan. pose proof (sqrt_lt_R0 z hz) as sz. pose proof (sqrt_lt_R0 t ht) as st.
  assert (E : 1 + (sqrt z / sqrt t)² = (t + z) / t).
  { unfold Rsqr. replace (sqrt z / sqrt t * (sqrt z / sqrt t)) with ((sqrt z * sqrt z) / (sqrt t * sqrt t)) by (field; lra).
    rewrite !sqrt_sqrt by lra. field. lra. }
  rewrite E, sqrt_div_alt by lra. assert (0 < sqrt (t + z)) by (apply sqrt_lt_R0; lra). field. lra.
Qed.
Lemma cot_der z t : 0 < z -> 0 < t -> is_derive (cot_th z) t (- (sqrt z / (2 * sqrt t * (t + z)))).
Proof.
  intros hz ht. unfold cot_th. pose proof (sqrt_lt_R0 z hz) as sz. pose proof (sqrt_lt_R0 t ht) as st.
  assert (et : sqrt t * sqrt t = t) by (apply sqrt_sqrt; lra). assert (ez : sqrt z * sqrt z = z) by (apply sqrt_sqrt; lra).
  auto_derive; [repeat split; lra|].
  replace (t + z) with (sqrt t * sqrt t + sqrt z * sqrt z) by lra.
  field. assert (0 < sqrt t * sqrt t) by (apply Rmult_lt_0_compat; lra). assert (0 < sqrt z * sqrt z) by (apply Rmult_lt_0_compat; lra). repeat split; try lra; nra.
Qed.
Lemma mmt_lt (M z t : R) : 0 < M -> t < z / (M * M) -> M * M * t < z.
Proof. intros. replace z with (M * M * (z / (M * M))) by (field; lra). apply Rmult_lt_compat_l; auto. nra. Qed.
Lemma mmt_gt (M z t : R) : 0 < M -> z / (M * M) < t -> z < M * M * t.
Proof. intros. replace z with (M * M * (z / (M * M))) at 1 by (field; lra). apply Rmult_lt_compat_l; auto. nra. Qed.
Lemma trig_gen (z : R) (g f : R -> R) : 0 < z -> (forall t, continuous g t) ->
  (forall t, 0 < t -> f t = sqrt z / (2 * sqrt t * (t + z)) * g (cot_th z t)) ->
  is_RInt_gen f 0+ oo (RInt g 0 (PI / 2)).
Proof.
  intros hz HC HE. pose proof PI_RGT_0 as pi0.
  pose proof (proper_gen g 0 (PI / 2) HC) as H.
  assert (LA : filterlim (cot_th z) 0+ (at_left (PI / 2))).
  { intros P [eps HP]. unfold filtermap.
    (* atan u > PI/2 - eps for u large *)
    set (e := Rmin eps (PI / 4)). assert (He : 0 < e) by (apply Rmin_pos; [apply cond_pos|lra]). assert (e <= PI / 4) by apply Rmin_r. assert (e <= eps) by apply Rmin_l.
    set (M := tan (PI / 2 - e)). assert (MP : 0 < M) by (apply tan_gt_0; lra).
    assert (HD : 0 < z / (M * M)) by (apply Rdiv_lt_0_compat; auto; apply Rmult_lt_0_compat; auto).
    exists (mkposreal _ HD). intros t Ht Hpt. unfold ball in Ht; cbn in Ht; unfold AbsRing_ball, abs, minus, plus, opp in Ht; cbn in Ht.
    rewrite Ropp_0, Rplus_0_r, Rabs_pos_eq in Ht by lra.
    assert (B : PI / 2 - e < cot_th z t < PI / 2).
    { unfold cot_th. split; [|apply atan_bound]. rewrite <- (atan_tan (PI / 2 - e)) by lra. apply atan_increasing. fold M.
      apply (Rmult_lt_reg_r (sqrt t)); [apply sqrt_lt_R0; lra|]. unfold Rdiv. rewrite Rmult_assoc, Rinv_l, Rmult_1_r by (apply Rgt_not_eq, sqrt_lt_R0; lra).
      rewrite <- (sqrt_square M) by lra. rewrite <- sqrt_mult by nra. apply sqrt_lt_1; try nra.
      apply mmt_lt; auto. }
    apply HP; [|lra]. unfold ball; cbn; unfold AbsRing_ball, abs, minus, plus, opp; cbn. apply Rabs_def1; lra. }
  assert (LB : filterlim (cot_th z) oo 0+).
  { intros P [eps HP]. unfold filtermap.
    set (e := Rmin eps (PI / 4)). assert (He : 0 < e) by (apply Rmin_pos; [apply cond_pos|lra]). assert (e <= PI / 4) by apply Rmin_r. assert (e <= eps) by apply Rmin_l.
    set (M := tan e). assert (MP : 0 < M) by (apply tan_gt_0; lra).
    exists (z / (M * M)). intros t Ht. assert (HD : 0 < z / (M * M)) by (apply Rdiv_lt_0_compat; auto; apply Rmult_lt_0_compat; auto).
    assert (0 < sqrt z) by (apply sqrt_lt_R0; lra). assert (0 < sqrt t) by (apply sqrt_lt_R0; lra).
    assert (B : 0 < cot_th z t < e).
    { unfold cot_th. split; [rewrite <- atan_0; apply atan_increasing, Rdiv_lt_0_compat; auto|]. rewrite <- (atan_tan e) by lra. apply atan_increasing. fold M.
      apply (Rmult_lt_reg_r (sqrt t)); [auto|]. unfold Rdiv. rewrite Rmult_assoc, Rinv_l, Rmult_1_r by lra.
      rewrite <- (sqrt_square M) by lra. rewrite <- sqrt_mult by nra. apply sqrt_lt_1; try nra.
      apply mmt_gt; auto. }
    apply HP; [|lra]. unfold ball; cbn; unfold AbsRing_ball, abs, minus, plus, opp; cbn. apply Rabs_def1; lra. }
  assert (K : is_RInt_gen (fun t => - (sqrt z / (2 * sqrt t * (t + z))) * g (cot_th z t)) 0+ oo (- RInt g 0 (PI / 2))).
  { apply (gen_comp g (cot_th z) (fun t => - (sqrt z / (2 * sqrt t * (t + z)))) (at_left (PI / 2)) 0+); auto; try typeclasses eauto.
    intros t Ht. split; [auto|]. split; [apply cot_der; auto|]. apply (ex_derive_continuous (fun t => - (sqrt z / (2 * sqrt t * (t + z))))).
    assert (0 < sqrt t) by (apply sqrt_lt_R0; lra). auto_derive. repeat split; try lra. apply Rgt_not_eq. repeat apply Rmult_lt_0_compat; lra. }
  apply is_RInt_gen_opp in K. replace (RInt g 0 (PI / 2)) with (opp (- RInt g 0 (PI / 2))) by (cbn; ring).
  refine (gen_ext _ _ _ _ K). intros t Ht. rewrite HE by auto. unfold opp; cbn. ring.
Qed.
Section Ex.
  Variables x y z r : R.
  Hypotheses (hy : 0 < y) (hz : 0 < z) (hr : 0 < r).
  Lemma tri_pos a t : 0 < a -> 0 < z * (cos t * cos t) + a * (sin t * sin t).
  Proof.
    intros ha. pose proof (sin2_cos2 t) as E. unfold Rsqr in E. pose proof (Rsq_pos (cos t)). pose proof (Rsq_pos (sin t)).
    assert (0 <= z * (cos t * cos t)) by (apply Rmult_le_pos; lra). assert (0 <= a * (sin t * sin t)) by (apply Rmult_le_pos; lra).
    destruct (Req_dec (sin t * sin t) 0) as [Q|Q]; [rewrite Q in *; nra|]. assert (0 < a * (sin t * sin t)) by (apply Rmult_lt_0_compat; lra). lra.
  Qed.
  Lemma tri_val a t : 0 < t -> z * (cos (cot_th z t) * cos (cot_th z t)) + a * (sin (cot_th z t) * sin (cot_th z t)) = z * (t + a) / (t + z).
  Proof.
    intros ht. rewrite cot_cos, cot_sin by auto. assert (0 < sqrt (t + z)) by (apply sqrt_lt_R0; lra).
    replace (sqrt t / sqrt (t + z) * (sqrt t / sqrt (t + z))) with (sqrt t * sqrt t / (sqrt (t + z) * sqrt (t + z))) by (field; lra).
    replace (sqrt z / sqrt (t + z) * (sqrt z / sqrt (t + z))) with (sqrt z * sqrt z / (sqrt (t + z) * sqrt (t + z))) by (field; lra).
    rewrite !sqrt_sqrt by lra. field. lra.
  Qed.
  Lemma tri_sqrt a t : 0 < t -> 0 <= a -> sqrt (z * (cos (cot_th z t) * cos (cot_th z t)) + a * (sin (cot_th z t) * sin (cot_th z t))) = sqrt z * sqrt (t + a) / sqrt (t + z).
  Proof.
    intros ht ha. rewrite tri_val by auto. rewrite sqrt_div_alt by lra. rewrite sqrt_mult by lra. reflexivity.
  Qed.
  Ltac trc := intros t; apply (ex_derive_continuous (K := R_AbsRing) (V := R_NormedModule)); auto_derive; pose proof (tri_pos y t hy); pose proof (tri_pos r t hr);
    try pose proof (sqrt_lt_R0 _ (tri_pos y t hy)).
  (** x = 0 *)
  Lemma RF_trig0 : is_RF 0 y z (RInt (fun t => / sqrt (z * (cos t * cos t) + y * (sin t * sin t))) 0 (PI / 2)).
  Proof.
    apply (trig_gen z (fun t => / sqrt (z * (cos t * cos t) + y * (sin t * sin t)))); auto.
    - trc. repeat split; auto. lra.
    - intros t ht. rewrite tri_sqrt by lra. rewrite Rplus_0_r. assert (0 < sqrt z) by (apply sqrt_lt_R0; lra). assert (0 < sqrt t) by (apply sqrt_lt_R0; lra).
      assert (0 < sqrt (t + y)) by (apply sqrt_lt_R0; lra). assert (0 < sqrt (t + z)) by (apply sqrt_lt_R0; lra).
      rewrite <- (sqrt_sqrt (t + z)) at 2 by lra. field. repeat split; lra.
  Qed.
  Lemma RJ_trig0 : is_RJ 0 y z r (RInt (fun t => 3 * (sin t * sin t) / (sqrt (z * (cos t * cos t) + y * (sin t * sin t)) * (z * (cos t * cos t) + r * (sin t * sin t)))) 0 (PI / 2)).
  Proof.
    apply (trig_gen z (fun t => 3 * (sin t * sin t) / (sqrt (z * (cos t * cos t) + y * (sin t * sin t)) * (z * (cos t * cos t) + r * (sin t * sin t))))); auto.
    - trc. repeat split; auto. apply Rgt_not_eq, Rmult_lt_0_compat; auto.
    - intros t ht. rewrite tri_sqrt, tri_val by lra. rewrite cot_sin by lra. rewrite Rplus_0_r. assert (0 < sqrt z) by (apply sqrt_lt_R0; lra). assert (0 < sqrt t) by (apply sqrt_lt_R0; lra).
      assert (0 < sqrt (t + y)) by (apply sqrt_lt_R0; lra). assert (0 < sqrt (t + z)) by (apply sqrt_lt_R0; lra).
      assert (EZ : z = sqrt z * sqrt z) by (symmetry; apply sqrt_sqrt; lra). assert (ET : t + z = sqrt (t + z) * sqrt (t + z)) by (symmetry; apply sqrt_sqrt; lra).
      set (sz := sqrt z) in *. set (st := sqrt (t + z)) in *. rewrite ET. rewrite EZ at 1. field. repeat split; lra.
  Qed.
  (** x > 0 *)
  Hypothesis hx : 0 < x.
  Lemma RF_trig : is_RF x y z (RInt (fun t => sqrt z * cos t / (sqrt (z * (cos t * cos t) + x * (sin t * sin t)) * sqrt (z * (cos t * cos t) + y * (sin t * sin t)))) 0 (PI / 2)).
  Proof.
    apply (trig_gen z (fun t => sqrt z * cos t / (sqrt (z * (cos t * cos t) + x * (sin t * sin t)) * sqrt (z * (cos t * cos t) + y * (sin t * sin t))))); auto.
    - trc. pose proof (tri_pos x t hx). pose proof (sqrt_lt_R0 _ (tri_pos x t hx)). repeat split; auto. apply Rgt_not_eq, Rmult_lt_0_compat; auto.
    - intros t ht. rewrite !tri_sqrt by lra. rewrite cot_cos by lra. assert (0 < sqrt z) by (apply sqrt_lt_R0; lra). assert (0 < sqrt t) by (apply sqrt_lt_R0; lra).
      assert (0 < sqrt (t + y)) by (apply sqrt_lt_R0; lra). assert (0 < sqrt (t + z)) by (apply sqrt_lt_R0; lra). assert (0 < sqrt (t + x)) by (apply sqrt_lt_R0; lra).
      assert (ET : t + z = sqrt (t + z) * sqrt (t + z)) by (symmetry; apply sqrt_sqrt; lra).
      set (st := sqrt (t + z)) in *. rewrite ET. field. repeat split; lra.
  Qed.
  Lemma RJ_trig : is_RJ x y z r (RInt (fun t => 3 * sqrt z * cos t * (sin t * sin t) / (sqrt (z * (cos t * cos t) + x * (sin t * sin t)) * sqrt (z * (cos t * cos t) + y * (sin t * sin t)) * (z * (cos t * cos t) + r * (sin t * sin t)))) 0 (PI / 2)).
  Proof.
    apply (trig_gen z (fun t => 3 * sqrt z * cos t * (sin t * sin t) / (sqrt (z * (cos t * cos t) + x * (sin t * sin t)) * sqrt (z * (cos t * cos t) + y * (sin t * sin t)) * (z * (cos t * cos t) + r * (sin t * sin t))))); auto.
    - trc. pose proof (tri_pos x t hx). pose proof (sqrt_lt_R0 _ (tri_pos x t hx)). repeat split; auto. apply Rgt_not_eq. repeat apply Rmult_lt_0_compat; auto.
    - intros t ht. rewrite !tri_sqrt, tri_val by lra. rewrite cot_cos, cot_sin by lra. assert (0 < sqrt z) by (apply sqrt_lt_R0; lra). assert (0 < sqrt t) by (apply sqrt_lt_R0; lra).
      assert (0 < sqrt (t + y)) by (apply sqrt_lt_R0; lra). assert (0 < sqrt (t + z)) by (apply sqrt_lt_R0; lra). assert (0 < sqrt (t + x)) by (apply sqrt_lt_R0; lra).
      assert (EZ : z = sqrt z * sqrt z) by (symmetry; apply sqrt_sqrt; lra). assert (ET : t + z = sqrt (t + z) * sqrt (t + z)) by (symmetry; apply sqrt_sqrt; lra).
      set (sz := sqrt z) in *. set (st := sqrt (t + z)) in *. rewrite ET. rewrite EZ at 1. field. repeat split; lra.
  Qed.
End Ex.
Lemma RF_exists x y z : 0 <= x -> 0 < y -> 0 < z -> exists l, is_RF x y z l.
Proof.
  intros [hx|<-] hy hz; [exact (ex_intro _ _ (RF_trig x y z 1 hy hz Rlt_0_1 hx))|exact (ex_intro _ _ (RF_trig0 y z 1 hy hz Rlt_0_1))].
Qed.
Lemma RJ_exists x y z r : 0 <= x -> 0 < y -> 0 < z -> 0 < r -> exists l, is_RJ x y z r l.
Proof.
  intros [hx|<-] hy hz hr; [exact (ex_intro _ _ (RJ_trig x y z r hy hz hr hx))|exact (ex_intro _ _ (RJ_trig0 y z r hy hz hr))].
Qed.
Lemma RC_RF x y l : 0 < y -> is_RF x y y l <-> is_RC x y l.
Proof.
  intros hy. unfold is_RF, is_RC. split; apply gen_ext; intros t ht; rewrite (Rmult_assoc (sqrt (t + x))), sqrt_sqrt by lra; reflexivity.
Qed.
Lemma RC_exists x y : 0 <= x -> 0 < y -> exists l, is_RC x y l.
Proof. intros hx hy. destruct (RF_exists x y y hx hy hy) as [l H]. exists l. exact (proj1 (RC_RF x y l hy) H). Qed.
(** Legendre's complete integrals *)
Lemma cos_sq t : cos t * cos t = 1 - sin t * sin t.
Proof. pose proof (sin2_cos2 t) as E. unfold Rsqr in E. lra. Qed.
Lemma Kell_RF m : m < 1 -> is_RF 0 (1 - m) 1 (Kell m).
Proof.
  intros hm. replace (Kell m) with (RInt (fun t => / sqrt (1 * (cos t * cos t) + (1 - m) * (sin t * sin t))) 0 (PI / 2)); [apply (RF_trig0 (1 - m) 1 1); lra|].
  unfold Kell. apply RInt_ext. intros t _. f_equal. f_equal. rewrite cos_sq. ring.
Qed.
Lemma Piell_RFRJ n m F J : n < 1 -> m < 1 -> is_RF 0 (1 - m) 1 F -> is_RJ 0 (1 - m) 1 (1 - n) J -> Piell n m = F + n / 3 * J.
Proof.
  intros hn hm HF HJ.
  rewrite (is_RF_unique _ _ _ _ _ HF (RF_trig0 (1 - m) 1 1 ltac:(lra) ltac:(lra) ltac:(lra))).
  rewrite (is_RJ_unique _ _ _ _ _ _ HJ (RJ_trig0 (1 - m) 1 (1 - n) ltac:(lra) ltac:(lra) ltac:(lra))).
  assert (P : forall t, 0 < 1 * (cos t * cos t) + (1 - m) * (sin t * sin t)) by (intros t; apply tri_pos; lra).
  assert (Q : forall t, 0 < 1 * (cos t * cos t) + (1 - n) * (sin t * sin t)) by (intros t; apply tri_pos; lra).
  set (f1 := fun t => / sqrt (1 * (cos t * cos t) + (1 - m) * (sin t * sin t))).
  set (f2 := fun t => 3 * (sin t * sin t) / (sqrt (1 * (cos t * cos t) + (1 - m) * (sin t * sin t)) * (1 * (cos t * cos t) + (1 - n) * (sin t * sin t)))).
  assert (C1 : forall t, continuous f1 t).
  { intros t. apply (ex_derive_continuous (K := R_AbsRing) (V := R_NormedModule)). unfold f1. auto_derive. pose proof (P t). pose proof (sqrt_lt_R0 _ (P t)). repeat split; auto; lra. }
  assert (C2 : forall t, continuous f2 t).
  { intros t. apply (ex_derive_continuous (K := R_AbsRing) (V := R_NormedModule)). unfold f2. auto_derive. pose proof (P t). pose proof (sqrt_lt_R0 _ (P t)). pose proof (Q t). repeat split; auto. apply Rgt_not_eq, Rmult_lt_0_compat; auto. }
  transitivity (RInt (fun t => f1 t + n / 3 * f2 t) 0 (PI / 2)).
  - unfold Piell. apply RInt_ext. intros t _. unfold f1, f2. pose proof (P t) as Pt. pose proof (sqrt_lt_R0 _ (P t)). pose proof (Q t) as Qt. revert Pt H Qt.
    rewrite cos_sq. replace (1 * (1 - sin t * sin t) + (1 - m) * (sin t * sin t)) with (1 - m * (sin t * sin t)) by ring.
    replace (1 * (1 - sin t * sin t) + (1 - n) * (sin t * sin t)) with (1 - n * (sin t * sin t)) by ring. intros. eqR. field. repeat split; lra.
  - apply is_RInt_unique. apply (is_RInt_plus f1 (fun t => n / 3 * f2 t)); [apply cont_is_RInt; auto|]. apply (is_RInt_scal f2 0 (PI / 2) (n / 3)). apply cont_is_RInt; auto.
Qed.
