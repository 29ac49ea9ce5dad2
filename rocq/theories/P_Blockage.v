(** * C119: which side of the rotor is slowed down and which is sped up by a vortex cylinder *)
From Coquelicot Require Import Coquelicot.
From Coq Require Import ZArith List Bool Arith Lia String Reals Lra Psatz.
From Verif Require Import Num NumR NumX M_Elliptic M_Line M_Cylinder M_Ring M_Doublet M_Skewed L_List L_X L_Angles L_Built Spec SpecBS L_Calc L_Ell L_Cyl L_Carlson P_Line P_Ring P_Doublet P_Skewed P_Cylinder P_Cylinder2 P_Cylinder3.
Import ListNotations.
Local Open Scope R_scope.
Local Notation len := List.length.

(** ** Positive integrals *)
Lemma int_pos (f : R -> R) (v a b c d : R) : is_RInt f a b v -> (forall x, continuous f x) ->
  (forall x, a < x < b -> 0 <= f x) -> a <= c -> c < d -> d <= b -> (forall x, c < x < d -> 0 < f x) -> 0 < v.
Proof.
  intros H HC HN h1 h2 h3 HP. apply RInt_val in H. subst v.
  assert (EX : forall u w, ex_RInt f u w) by (intros; apply cont_ex_RInt; auto).
  rewrite <- (RInt_Chasles f a c b) by auto. rewrite <- (RInt_Chasles f c d b) by auto.
  assert (P1 : 0 <= RInt f a c) by (apply RInt_ge_0; auto; intros; apply HN; lra).
  assert (P2 : 0 < RInt f c d) by (apply RInt_gt_0; auto).
  assert (P3 : 0 <= RInt f d b) by (apply RInt_ge_0; auto; intros; apply HN; lra).
  change plus with Rplus. lra.
Qed.
Lemma const_int (k : R) : is_RInt (fun _ : R => k) 0 (2 * PI) (2 * PI * k).
Proof.
  replace (is_RInt (fun _ : R => k) 0 (2 * PI) (2 * PI * k)) with (is_RInt (fun _ : R => k) 0 (2 * PI) (scal (2 * PI - 0) k)); [apply (@is_RInt_const R_NormedModule)|].
  f_equal. rsc. ring.
Qed.
Lemma cos_lt_1 t : 0 < t < 2 * PI -> cos t < 1.
Proof.
  intros H. pose proof PI_RGT_0. destruct (Rle_lt_dec t PI) as [L|L].
  - rewrite <- cos_0. apply cos_decreasing_1; lra.
  - rewrite <- cos_2PI. apply cos_increasing_1; lra.
Qed.
(** ** the function z/sqrt(A+z^2) *)
Definition sl (A z : R) : R := z / sqrt (A + z * z).
Lemma sl_den A z : 0 < A -> 0 < sqrt (A + z * z).
Proof. intros. apply sqrt_lt_R0. pose proof (Rsq_pos z). lra. Qed.
Lemma sl_opp A z : sl A (- z) = - sl A z.
Proof. unfold sl. replace (- z * - z) with (z * z) by ring. unfold Rdiv. ring. Qed.
Lemma sl_pos_incr A z1 z2 : 0 < A -> 0 <= z1 -> z1 < z2 -> sl A z1 < sl A z2.
Proof.
  intros hA h1 h2. unfold sl. pose proof (sl_den A z1 hA) as D1. pose proof (sl_den A z2 hA) as D2.
  apply (Rmult_lt_reg_r (sqrt (A + z1 * z1) * sqrt (A + z2 * z2))). { apply Rmult_lt_0_compat; auto. }
  replace (z1 / sqrt (A + z1 * z1) * (sqrt (A + z1 * z1) * sqrt (A + z2 * z2))) with (z1 * sqrt (A + z2 * z2)) by (field; lra).
  replace (z2 / sqrt (A + z2 * z2) * (sqrt (A + z1 * z1) * sqrt (A + z2 * z2))) with (z2 * sqrt (A + z1 * z1)) by (field; lra).
  assert (Q : forall z w, 0 <= z -> 0 <= w -> z * sqrt w = sqrt (z * z * w)).
  { intros z w hz hw. rewrite sqrt_mult by (try apply Rmult_le_pos; auto). rewrite sqrt_square by auto. reflexivity. }
  pose proof (Rsq_pos z1). pose proof (Rsq_pos z2).
  rewrite !Q by lra. apply sqrt_lt_1_alt. split; [apply Rmult_le_pos; lra|].
  assert (z1 * z1 < z2 * z2) by nra. nra.
Qed.
Lemma sl_0 A : sl A 0 = 0.
Proof. unfold sl, Rdiv. ring. Qed.
Lemma sl_incr A z1 z2 : 0 < A -> z1 < z2 -> sl A z1 < sl A z2.
Proof.
  intros hA h. destruct (Rle_lt_dec 0 z1) as [L|L]; [apply sl_pos_incr; auto|].
  destruct (Rle_lt_dec z2 0) as [M|M].
  - pose proof (sl_pos_incr A (- z2) (- z1) hA ltac:(lra) ltac:(lra)) as K. rewrite !sl_opp in K. lra.
  - pose proof (sl_pos_incr A 0 (- z1) hA ltac:(lra) ltac:(lra)) as K1. pose proof (sl_pos_incr A 0 z2 hA ltac:(lra) ltac:(lra)) as K2. rewrite sl_opp in K1. rewrite sl_0 in *. lra.
Qed.
Lemma sl_bound A z : 0 < A -> -1 < sl A z < 1.
Proof.
  intros hA. pose proof (sl_den A z hA) as D.
  assert (K : Rabs z < sqrt (A + z * z)). { rewrite <- sqrt_Rsqr_abs. apply sqrt_lt_1_alt. unfold Rsqr. pose proof (Rsq_pos z). lra. }
  apply Rabs_def2 in K. unfold sl. split.
  - apply (Rmult_lt_reg_r (sqrt (A + z * z))); auto. replace (z / sqrt (A + z * z) * sqrt (A + z * z)) with z by (field; lra). lra.
  - apply (Rmult_lt_reg_r (sqrt (A + z * z))); auto. replace (z / sqrt (A + z * z) * sqrt (A + z * z)) with z by (field; lra). lra.
Qed.
(** upstream, further from the vorticity is less negative *)
Lemma sl_far A B z : 0 < A -> A < B -> z < 0 -> sl A z < sl B z.
Proof.
  intros hA h hz. unfold sl. pose proof (sl_den A z hA) as D1. pose proof (sl_den B z ltac:(lra)) as D2.
  assert (sqrt (A + z * z) < sqrt (B + z * z)) by (apply sqrt_lt_1_alt; pose proof (Rsq_pos z); lra).
  assert (/ sqrt (B + z * z) < / sqrt (A + z * z)). { apply Rinv_lt_contravar; auto. apply Rmult_lt_0_compat; auto. }
  unfold Rdiv. nra.
Qed.
(** ** The axial integrand *)
Definition ix (Rr r z t : R) : R := Rr / (4 * PI) * ((Rr - r * cos t) / (sqrt (dd r Rr z t) * (sqrt (dd r Rr z t) - z))).
Lemma ix_int Rr r z : 0 <= r -> 0 < Rr -> r <> Rr \/ z < 0 -> is_RInt (ix Rr r z) 0 (2 * PI) (Cz 1 Rr r z).
Proof. intros hr hR H. pose proof (axial_int 1 Rr r z hr hR H) as K. eapply is_RInt_ext; [|exact K]. intros t _. unfold ix. rewrite Rmult_1_l. reflexivity. Qed.
Lemma ix_cont Rr r z : 0 <= r -> 0 < Rr -> r <> Rr \/ z < 0 -> forall x, continuous (ix Rr r z) x.
Proof.
  intros hr hR H x. destruct (straight_row 1 Rr r 0 z x hr hR H) as (P1 & P2 & _). cbv zeta in *. rewrite Rminus_0_r in *. assert (0 < sqrt (dd r Rr z x)) by (apply sqrt_lt_R0; auto).
  pose proof PI_RGT_0. apply (ex_derive_continuous (ix Rr r z)). unfold ix, dd in *.
  auto_derive. change (r * r + Rr * Rr + z * z + - (2 * r * Rr * cos x)) with (r * r + Rr * Rr + z * z - 2 * r * Rr * cos x).
  repeat split; try lra. apply Rgt_not_eq, Rmult_lt_0_compat; lra.
Qed.
Lemma da_pos Rr r t : 0 <= r -> 0 < Rr -> 0 < t < 2 * PI -> 0 < da r Rr t.
Proof.
  intros hr hR Ht. pose proof (cos_lt_1 t Ht). unfold da, dd. destruct hr as [hr|<-]; [|nra].
  assert (0 < r * Rr) by (apply Rmult_lt_0_compat; auto). pose proof (Rsq_pos (r - Rr)). nra.
Qed.
Lemma ix_form Rr r z t : 0 <= r -> 0 < Rr -> 0 < da r Rr t ->
  ix Rr r z t = / (8 * PI) * ((1 + (Rr * Rr - r * r) / da r Rr t) * (1 + sl (da r Rr t) z)).
Proof.
  intros hr hR hA. pose proof PI_RGT_0. unfold ix, sl. assert (ED : dd r Rr z t = da r Rr t + z * z) by (unfold da, dd; ring).
  rewrite ED. pose proof (sl_den _ z hA) as D. assert (S2 : sqrt (da r Rr t + z * z) * sqrt (da r Rr t + z * z) = da r Rr t + z * z) by (apply sqrt_sqrt; pose proof (Rsq_pos z); lra).
  assert (EQ : Rr * (Rr - r * cos t) = (da r Rr t + Rr * Rr - r * r) / 2) by (unfold da, dd; field).
  pose proof (sl_bound _ z hA) as [B1 B2]. unfold sl in B1, B2.
  set (A := da r Rr t) in *. set (w := sqrt (A + z * z)) in *.
  assert (WZ : 0 < w - z). { apply (Rmult_lt_reg_r (/ w)); [apply Rinv_0_lt_compat; auto|]. rewrite Rmult_0_l, Rmult_minus_distr_r, Rinv_r by lra. unfold Rdiv in B2. lra. }
  assert (EA : A = (w - z) * (w + z)) by (replace ((w - z) * (w + z)) with (w * w - z * z) by ring; rewrite S2; ring).
  assert (WP : w + z <> 0). { intros Z. rewrite Z, Rmult_0_r in EA. lra. }
  transitivity (/ (4 * PI) * (Rr * (Rr - r * cos t)) / (w * (w - z))); [field; repeat split; lra|]. rewrite EQ.
  clearbody w A. rewrite EA. field. repeat split; lra.
Qed.
(** ** C119 on the closed form *)
Definition kz (Rr r z : R) : R := Cz 1 Rr r z.
Lemma Cz_scale g Rr r z : Cz g Rr r z = g * kz Rr r z.
Proof. unfold kz, Cz, CzP. destruct (Req_EM_T r Rr); unfold Rdiv; ring. Qed.
Lemma kz_mirror Rr r z : kz Rr r (- z) = (if Req_EM_T r Rr then 1 / 2 else if Rlt_dec r Rr then 1 else 0) - kz Rr r z.
Proof.
  unfold kz, Cz, CzP. rewrite mm_even. replace (a2 r Rr (- z)) with (a2 r Rr z) by (unfold a2; ring).
  replace (- z / (PI * sqrt (a2 r Rr z))) with (- (z / (PI * sqrt (a2 r Rr z)))) by (unfold Rdiv; ring).
  set (q := z / (PI * sqrt (a2 r Rr z))). destruct (Req_EM_T r Rr); [lra|]. destruct (Rlt_dec r Rr); lra.
Qed.
Lemma kz_in_pos Rr r z : 0 <= r -> 0 < Rr -> r < Rr \/ (r = Rr /\ z < 0) -> 0 < kz Rr r z.
Proof.
  intros hr hR H. pose proof PI_RGT_0. assert (H' : r <> Rr \/ z < 0) by (destruct H as [H|[H1 H2]]; [left; lra|right; lra]).
  assert (P : forall t, 0 < t < 2 * PI -> 0 < ix Rr r z t).
  { intros t Ht. pose proof (da_pos Rr r t hr hR Ht) as hA. rewrite ix_form by auto. pose proof (sl_bound _ z hA).
    assert (0 <= (Rr * Rr - r * r) / da r Rr t). { apply Rmult_le_pos; [destruct H; nra|]. left. apply Rinv_0_lt_compat; auto. }
    apply Rmult_lt_0_compat; [apply Rinv_0_lt_compat; lra|]. apply Rmult_lt_0_compat; lra. }
  apply (int_pos (ix Rr r z) _ 0 (2 * PI) 0 (2 * PI)); try lra; auto.
  - apply ix_int; auto.
  - apply ix_cont; auto.
  - intros x Hx. left. apply P; auto.
Qed.
Lemma int_lt (f g : R -> R) u v : is_RInt f 0 (2 * PI) u -> is_RInt g 0 (2 * PI) v -> (forall x, continuous f x) -> (forall x, continuous g x) ->
  (forall x, 0 < x < 2 * PI -> f x < g x) -> u < v.
Proof.
  intros Hf Hg Cf Cg H. pose proof PI_RGT_0. assert (0 < v - u); [|lra].
  assert (K := is_RInt_minus _ _ _ _ _ _ Hg Hf).
  apply (int_pos _ _ 0 (2 * PI) 0 (2 * PI) K); try lra.
  - intros x. apply (continuous_minus g f); auto.
  - intros x Hx. specialize (H x Hx). change (0 <= g x - f x). lra.
  - intros x Hx. specialize (H x Hx). change (0 < g x - f x). lra.
Qed.
Lemma kz_incr Rr r z1 z2 : 0 <= r -> 0 < Rr -> r < Rr -> z1 < z2 -> kz Rr r z1 < kz Rr r z2.
Proof.
  intros hr hR H Hz. pose proof PI_RGT_0. assert (NE : forall z : R, r <> Rr \/ z < 0) by (intros; left; lra).
  apply (int_lt (ix Rr r z1) (ix Rr r z2)); try (apply ix_int; auto); try (apply ix_cont; auto).
  intros t Ht. pose proof (da_pos Rr r t hr hR Ht) as hA. rewrite !ix_form by auto. pose proof (sl_incr _ z1 z2 hA Hz).
  assert (0 < (Rr * Rr - r * r) / da r Rr t). { apply Rmult_lt_0_compat; [nra|]. apply Rinv_0_lt_compat; auto. }
  apply Rmult_lt_compat_l; [apply Rinv_0_lt_compat; lra|]. apply Rmult_lt_compat_l; lra.
Qed.
Lemma kz_0 Rr r : r <> Rr -> kz Rr r 0 = if Rlt_dec r Rr then 1 / 2 else 0.
Proof. intros H. unfold kz, Cz, CzP. destruct (Req_EM_T r Rr); [contradiction|]. destruct (Rlt_dec r Rr); unfold Rdiv; ring. Qed.
Lemma kz_quarter Rr r z : 0 < Rr -> Rr <= r -> z < 0 -> kz Rr r z < 1 / 4.
Proof.
  intros hR H Hz. pose proof PI_RGT_0. replace (1 / 4) with (2 * PI * / (8 * PI)) by (field; lra).
  apply (int_lt (ix Rr r z) (fun _ => / (8 * PI))); [apply ix_int; auto; lra|apply const_int|apply ix_cont; auto; lra|intros; apply continuous_const|].
  intros t Ht. pose proof (da_pos Rr r t ltac:(lra) hR Ht) as hA. rewrite ix_form by (auto; lra). pose proof (sl_bound _ z hA). pose proof (sl_incr _ z 0 hA Hz) as N. rewrite sl_0 in N.
  assert ((Rr * Rr - r * r) / da r Rr t <= 0). { assert (0 < / da r Rr t) by (apply Rinv_0_lt_compat; auto). assert (Rr * Rr <= r * r) by nra. unfold Rdiv. clear - H2 H3. nra. }
  rewrite <- (Rmult_1_r (/ (8 * PI))) at 2. apply Rmult_lt_compat_l; [apply Rinv_0_lt_compat; lra|]. 
  set (a := (Rr * Rr - r * r) / da r Rr t) in *. set (s := sl (da r Rr t) z) in *. nra.
Qed.
Lemma da_cont Rr r : 0 <= r -> 0 < Rr -> r <> Rr -> forall x, continuous (fun t => / da r Rr t) x.
Proof.
  intros hr hR H x. assert (0 < da r Rr x) by (apply dd_pos; auto; pose proof (Rsq_lt (r - Rr) ltac:(lra)); lra).
  apply (ex_derive_continuous (fun t => / da r Rr t)). unfold da, dd in *. auto_derive. lra.
Qed.
(** outside the tube the weights 1+(R^2-r^2)/A have zero mean, and the larger ones meet the larger factors *)
Lemma kz_out_pos Rr r z : 0 < Rr -> Rr < r -> z < 0 -> 0 < kz Rr r z.
Proof.
  intros hR H Hz. pose proof PI_RGT_0. assert (hr : 0 <= r) by lra. set (A0 := r * r - Rr * Rr). assert (hA0 : 0 < A0) by (unfold A0; nra).
  pose proof (ix_int Rr r z hr hR (or_intror Hz)) as I1. pose proof (int0 r Rr hr hR ltac:(lra)) as J0.
  assert (K := is_RInt_minus _ _ _ _ _ _ I1 (is_RInt_scal _ _ _ (/ (8 * PI) * (1 + sl A0 z)) _ (is_RInt_plus _ _ _ _ _ _ (const_int 1) (is_RInt_scal _ _ _ (Rr * Rr - r * r) _ J0)))).
  assert (DA : forall t, 0 < da r Rr t) by (intros; apply dd_pos; auto; pose proof (Rsq_lt (r - Rr) ltac:(lra)); lra).
  match type of K with is_RInt _ _ _ ?v => assert (EV : kz Rr r z = v) end.
  { change (kz Rr r z = kz Rr r z + - (/ (8 * PI) * (1 + sl A0 z) * (2 * PI * 1 + (Rr * Rr - r * r) * (2 * PI / (Rabs (r - Rr) * (r + Rr)))))).
    rewrite Rabs_right by lra. replace (2 * PI * 1 + (Rr * Rr - r * r) * (2 * PI / ((r - Rr) * (r + Rr)))) with 0 by (field; split; lra). ring. }
  rewrite EV.
  assert (EF : forall t, minus (ix Rr r z t) (scal (/ (8 * PI) * (1 + sl A0 z)) (plus 1 (scal (Rr * Rr - r * r) (/ da r Rr t)))) =
     / (8 * PI) * ((1 - A0 / da r Rr t) * (sl (da r Rr t) z - sl A0 z))).
  { intros t. rewrite ix_form by auto. pose proof (DA t). unfold A0. 
    change (/ (8 * PI) * ((1 + (Rr * Rr - r * r) / da r Rr t) * (1 + sl (da r Rr t) z)) + - (/ (8 * PI) * (1 + sl (r * r - Rr * Rr) z) * (1 + (Rr * Rr - r * r) * / da r Rr t)) =
      / (8 * PI) * ((1 - (r * r - Rr * Rr) / da r Rr t) * (sl (da r Rr t) z - sl (r * r - Rr * Rr) z))). field. split; lra. }
  assert (P8 : 0 < / (8 * PI)) by (apply Rinv_0_lt_compat; lra).
  assert (SG : forall t, A0 < da r Rr t -> 0 < / (8 * PI) * ((1 - A0 / da r Rr t) * (sl (da r Rr t) z - sl A0 z))).
  { intros t L. pose proof (DA t). apply Rmult_lt_0_compat; auto. apply Rmult_lt_0_compat.
    - assert (A0 / da r Rr t < 1); [|lra]. apply (Rmult_lt_reg_r (da r Rr t)); auto. replace (A0 / da r Rr t * da r Rr t) with A0 by (field; lra). lra.
    - pose proof (sl_far A0 (da r Rr t) z hA0 L Hz). lra. }
  apply (int_pos _ _ 0 (2 * PI) (PI / 2) PI K); try lra.
  - intros x. apply (continuous_minus (ix Rr r z) (fun t => scal (/ (8 * PI) * (1 + sl A0 z)) (plus 1 (scal (Rr * Rr - r * r) (/ da r Rr t))))).
    + apply ix_cont; auto.
    + apply (continuous_scal_r (/ (8 * PI) * (1 + sl A0 z)) (fun t => plus 1 (scal (Rr * Rr - r * r) (/ da r Rr t)))).
      apply (continuous_plus (fun _ => 1) (fun t => scal (Rr * Rr - r * r) (/ da r Rr t))); [apply continuous_const|].
      apply (continuous_scal_r (Rr * Rr - r * r) (fun t => / da r Rr t)). apply da_cont; auto. lra.
  - intros t Ht. rewrite EF. destruct (Rtotal_order A0 (da r Rr t)) as [L|[L|L]].
    + left. apply SG. auto.
    + rewrite <- L. right. ring.
    + left. pose proof (DA t). apply Rmult_lt_0_compat; auto. pose proof (sl_far (da r Rr t) A0 z (DA t) L Hz).
      assert (1 < A0 / da r Rr t). { apply (Rmult_lt_reg_r (da r Rr t)); auto. replace (A0 / da r Rr t * da r Rr t) with A0 by (field; lra). lra. }
      nra.
  - intros t Ht. rewrite EF. apply SG. unfold A0, da, dd. assert (HC : cos t < 0) by (apply cos_lt_0; lra).
    assert (0 < r * Rr) by (apply Rmult_lt_0_compat; lra). assert (0 < Rr * Rr) by (apply Rmult_lt_0_compat; lra). clear - HC H1 H2. nra.
Qed.
(** the radial component *)
Lemma JJ_pos r Rr z : 0 < r -> 0 < Rr -> 0 < (r - Rr) * (r - Rr) + z * z -> 0 < JJ r Rr z.
Proof.
  intros hr hR off. pose proof PI_RGT_0. pose proof (JJ_int r Rr z off ltac:(lra) hR) as J.
  assert (C0 : is_RInt cos 0 (2 * PI) 0).
  { replace 0 with (sin (2 * PI) - sin 0) at 2 by (rewrite sin_2PI, sin_0; ring). apply (is_RInt_derive sin cos).
    - intros. auto_derive; auto. ring.
    - intros. apply cos_cont. }
  set (D := r * r + Rr * Rr + z * z). assert (DD : forall t, 0 < dd r Rr z t) by (intros; apply dd_pos; auto; lra).
  assert (HD : 0 < D). { pose proof (DD (PI / 2)) as Q. unfold dd in Q. rewrite cos_PI2 in Q. unfold D. lra. }
  assert (K := is_RInt_minus _ _ _ _ _ _ J (is_RInt_scal _ _ _ (/ sqrt D) _ C0)).
  match type of K with is_RInt _ _ _ ?v => replace (JJ r Rr z) with v end.
  2: { change (JJ r Rr z + - (/ sqrt D * 0) = JJ r Rr z). ring. }
  assert (EF : forall t, minus (cos t * / sqrt (dd r Rr z t)) (scal (/ sqrt D) (cos t)) = cos t * (/ sqrt (dd r Rr z t) - / sqrt D)).
  { intros t. change (cos t * / sqrt (dd r Rr z t) + - (/ sqrt D * cos t) = cos t * (/ sqrt (dd r Rr z t) - / sqrt D)). ring. }
  assert (IV : forall a b, 0 < a -> a < b -> / sqrt b < / sqrt a).
  { intros a b ha hb. apply Rinv_lt_contravar; [apply Rmult_lt_0_compat; apply sqrt_lt_R0; lra|]. apply sqrt_lt_1_alt. lra. }
  assert (rR : 0 < r * Rr) by (apply Rmult_lt_0_compat; auto).
  assert (SG : forall t, 0 < cos t -> 0 < cos t * (/ sqrt (dd r Rr z t) - / sqrt D)).
  { intros t Hc. apply Rmult_lt_0_compat; auto. pose proof (IV (dd r Rr z t) D (DD t) ltac:(unfold dd, D; nra)). lra. }
  apply (int_pos _ _ 0 (2 * PI) 0 (PI / 2) K); try lra.
  - intros x. apply (continuous_minus (fun t => cos t * / sqrt (dd r Rr z t)) (fun t => scal (/ sqrt D) (cos t))).
    + apply (continuous_mult cos (fun t => / sqrt (dd r Rr z t))); [apply cos_cont|apply dd_cont1; auto; lra].
    + apply (continuous_scal_r (/ sqrt D) cos). apply cos_cont.
  - intros t Ht. rewrite EF. destruct (Rtotal_order 0 (cos t)) as [L|[L|L]].
    + left. apply SG. auto.
    + rewrite <- L. right. ring.
    + left. pose proof (IV D (dd r Rr z t) HD ltac:(unfold dd, D; nra)). nra.
  - intros t Ht. rewrite EF. apply SG. apply cos_gt_0; lra.
Qed.

(** ** C119 *)
(** where a cylinder of intensity 1 slows down (k>0) or speeds up (k<0), and by how much at most *)
Definition blockage (Rr r z k : R) : Prop :=
  (r < Rr -> (z < 0 -> 0 < k < 1 / 2) /\ (z = 0 -> k = 1 / 2) /\ (0 < z -> 1 / 2 < k < 1)) /\
  (r = Rr -> (z < 0 -> 0 < k < 1 / 4) /\ (0 < z -> 1 / 4 < k < 1 / 2)) /\
  (Rr < r -> (z < 0 -> 0 < k < 1 / 4) /\ (z = 0 -> k = 0) /\ (0 < z -> - (1 / 4) < k < 0)).
Lemma kz_blockage Rr r z : 0 < Rr -> 0 <= r -> blockage Rr r z (kz Rr r z).
Proof.
  intros hR hr. assert (MI : kz Rr r z = (if Req_EM_T r Rr then 1 / 2 else if Rlt_dec r Rr then 1 else 0) - kz Rr r (- z)) by (pose proof (kz_mirror Rr r (- z)) as Q; rewrite Ropp_involutive in Q; exact Q).
  split; [|split]; intros H.
  - assert (IN : forall y, y < 0 -> 0 < kz Rr r y < 1 / 2).
    { intros y hy. split; [apply kz_in_pos; auto|]. pose proof (kz_incr Rr r y 0 hr hR H hy) as Q. rewrite (kz_0 Rr r ltac:(lra)) in Q. destruct (Rlt_dec r Rr); lra. }
    split; [apply IN|split].
    + intros ->. rewrite kz_0 by lra. destruct (Rlt_dec r Rr); lra.
    + intros hz. specialize (IN (- z) ltac:(lra)). destruct (Req_EM_T r Rr); [lra|]. destruct (Rlt_dec r Rr); lra.
  - assert (IN : forall y, y < 0 -> 0 < kz Rr r y < 1 / 4) by (intros y hy; split; [apply kz_in_pos; auto|apply kz_quarter; lra]).
    split; [apply IN|]. intros hz. specialize (IN (- z) ltac:(lra)). destruct (Req_EM_T r Rr); [lra|contradiction].
  - assert (IN : forall y, y < 0 -> 0 < kz Rr r y < 1 / 4) by (intros y hy; split; [apply kz_out_pos; auto|apply kz_quarter; lra]).
    split; [apply IN|split].
    + intros ->. rewrite kz_0 by lra. destruct (Rlt_dec r Rr); lra.
    + intros hz. specialize (IN (- z) ltac:(lra)). destruct (Req_EM_T r Rr); [lra|]. destruct (Rlt_dec r Rr); lra.
Qed.
Lemma rax_side Rr r : 0 < Rr -> 0 <= r -> 0 <= rax Rr r /\ (r < Rr -> rax Rr r < Rr) /\ (Rr <= r -> rax Rr r = r).
Proof. intros hR hr. unfold rax. destruct (axisb_spec Rr r) as [Z|Z]; unfold axis_zone in Z; repeat split; intros; lra. Qed.
Lemma blockage_rax Rr r z k : 0 < Rr -> 0 <= r -> blockage Rr (rax Rr r) z k -> blockage Rr r z k.
Proof.
  intros hR hr (A & B & C). destruct (rax_side Rr r hR hr) as (_ & S1 & S2). split; [|split]; intros H.
  - apply A. auto.
  - rewrite S2 in B by lra. auto.
  - rewrite S2 in C by lra. auto.
Qed.
(** value at any point outside the rim zone, for an exact third-kind routine *)
Lemma vc_exact PIb g Rr pts i p : third PIb exact3 -> 0 < Rr -> nth_error pts i = Some p -> ~ rim_zone Rr (rho p) (pz p) ->
  let r := rax Rr (rho p) in
  nth_error (vc_tang_u_gen (N := XN) PIb (Fin g) (Fin Rr) (Fin 0) (map xv pts)) i =
    Some (xv (Cr g Rr r (pz p) * cos (azim p), Cr g Rr r (pz p) * sin (azim p), g * kz Rr r (pz p))).
Proof.
  intros HT hR Hi NR r. destruct (vcu_at PIb exact3 g Rr pts i p HT hR Hi) as (q & _ & E2 & _ & Hq).
  rewrite E2, <- Cz_scale. unfold vcR. destruct (rimb_spec Rr (rho p) (pz p)) as [Z|_]; [contradiction|]. unfold r, rax. destruct (axisb_spec Rr (rho p)) as [Z|Z].
  - destruct (axis_val g Rr (pz p) hR) as (V1 & V2 & _). rewrite V1, V2. reflexivity.
  - cbn [fst snd]. destruct (Req_dec (rho p) Rr) as [E|NE].
    + unfold Cz, CzP. destruct (Req_EM_T (rho p) Rr); [reflexivity|contradiction].
    + unfold Cz. rewrite <- (Hq ltac:(unfold regb, rzp; cbn [fst snd]; destruct (axisb_spec Rr (rho p)); [contradiction|]; destruct (rimb_spec Rr (rho p) (pz p)) as [Z'|_]; [contradiction|reflexivity]) NE). reflexivity.
Qed.
(** C119, axial part: a cylinder of intensity g<0 (a turbine's wake) slows down the air everywhere upstream of its rotor plane and
    everywhere inside the wake tube, by less than |g|/2 upstream and less than |g| in the wake; outside the tube it speeds up the air
    everywhere downstream of the rotor plane, by less than |g|/4.  [third PIb exact3]: the routine for the elliptic integral is exact *)
Theorem C119_axial_blockage : forall PIb g Rr (pts : list R3) i p, third PIb exact3 -> 0 < Rr -> nth_error pts i = Some p ->
  let r := sqrt (px p ^ 2 + py p ^ 2) in
  exists ux uy k, nth_error (vc_tang_u_gen (N := XN) PIb (Fin g) (Fin Rr) (Fin 0) (map xv pts)) i = Some (xv (ux, uy, g * k)) /\
    (Rabs (r - Rr) / Rr < 1 / 100000000 /\ Rabs (pz p / Rr) < 1 / 100000000 -> k = 1 / 4) /\
    (~ (Rabs (r - Rr) / Rr < 1 / 100000000 /\ Rabs (pz p / Rr) < 1 / 100000000) -> blockage Rr r (pz p) k).
Proof.
  intros PIb g Rr pts i p HT hR Hi r. assert (ER : rho p = r) by (unfold rho, r; f_equal; ring).
  destruct (rimb_spec Rr r (pz p)) as [Z|Z].
  - destruct (vcu_at PIb exact3 g Rr pts i p HT hR Hi) as (q & _ & E2 & _). rewrite ER in E2. unfold vcR in E2.
    destruct (rimb_spec Rr r (pz p)) as [_|Z']; [|contradiction]. cbn [fst snd] in E2. do 2 eexists. exists (1 / 4). split; [rewrite E2; replace (g / 4) with (g * (1 / 4)) by field; reflexivity|].
    unfold rim_zone in Z. split; [reflexivity|contradiction].
  - do 2 eexists. exists (kz Rr (rax Rr r) (pz p)). split; [rewrite <- ER; apply vc_exact; auto; rewrite ER; auto|]. unfold rim_zone in Z. split; [contradiction|]. intros _.
    assert (hr : 0 <= r) by apply sqrt_pos. apply blockage_rax; auto. apply kz_blockage; auto. apply rax_side; auto.
Qed.
(** the same with an inexact routine: an error of e on the integral costs at most |g| e/(2 pi) on the velocity *)
Definition within (e : R) (n m q : R) : Prop := Rabs (q - Piell n m) <= e.
Lemma CzP_lip g Rr r z P Q : 0 <= r -> 0 < Rr -> 0 < (r - Rr) * (r - Rr) + z * z -> Rabs (CzP g Rr r z P - CzP g Rr r z Q) <= Rabs g * Rabs (P - Q) / (2 * PI).
Proof.
  intros hr hR off. pose proof PI_RGT_0 as HP. assert (G0 : 0 <= Rabs g * Rabs (P - Q)) by (apply Rmult_le_pos; apply Rabs_pos). assert (I0 : 0 < / (2 * PI)) by (apply Rinv_0_lt_compat; lra).
  unfold CzP. destruct (Req_EM_T r Rr) as [E|E].
  - rewrite Rminus_eq_0, Rabs_R0. apply Rmult_le_pos; lra.
  - pose proof (a2_pos r Rr z off hr hR) as A. assert (SA : 0 < sqrt (a2 r Rr z)) by (apply sqrt_lt_R0; auto).
    set (h := if Rlt_dec r Rr then 1 else 0). set (K := Kell (mm r Rr z)).
    replace (g / 2 * (h + z / (PI * sqrt (a2 r Rr z)) * (K + (Rr - r) / (Rr + r) * P)) - g / 2 * (h + z / (PI * sqrt (a2 r Rr z)) * (K + (Rr - r) / (Rr + r) * Q)))
      with (g * (P - Q) * / (2 * PI) * (z / sqrt (a2 r Rr z) * ((Rr - r) / (Rr + r)))) by (field; repeat split; lra).
    rewrite !Rabs_mult. rewrite (Rabs_right (/ (2 * PI))) by lra.
    assert (B1 : Rabs (z / sqrt (a2 r Rr z)) <= 1).
    { unfold Rdiv. rewrite Rabs_mult, (Rabs_right (/ _)) by (apply Rle_ge; left; apply Rinv_0_lt_compat; auto). apply (Rmult_le_reg_r (sqrt (a2 r Rr z))); auto. rewrite Rmult_assoc, Rinv_l, Rmult_1_l, Rmult_1_r by lra.
      rewrite <- sqrt_Rsqr_abs. apply sqrt_le_1_alt. unfold a2, Rsqr. pose proof (Rsq_pos (r + Rr)). lra. }
    assert (B2 : Rabs ((Rr - r) / (Rr + r)) <= 1).
    { apply Rabs_le. split; apply (Rmult_le_reg_r (Rr + r)); try lra; replace ((Rr - r) / (Rr + r) * (Rr + r)) with (Rr - r) by (field; lra); lra. }
    assert (B3 : Rabs (z / sqrt (a2 r Rr z)) * Rabs ((Rr - r) / (Rr + r)) <= 1 * 1) by (apply Rmult_le_compat; auto; apply Rabs_pos).
    unfold Rdiv at 3. rewrite <- (Rmult_1_r (Rabs g * Rabs (P - Q) * / (2 * PI))) at 2. apply Rmult_le_compat_l; [|lra]. apply Rmult_le_pos; lra.
Qed.
Theorem C119_inexact_integral : forall PIb e g Rr (pts : list R3) i p, third PIb (within e) -> 0 < Rr -> 0 <= e -> nth_error pts i = Some p ->
  let r := sqrt (px p ^ 2 + py p ^ 2) in ~ (Rabs (r - Rr) / Rr < 1 / 100000000 /\ Rabs (pz p / Rr) < 1 / 100000000) ->
  exists ux uy uz k, nth_error (vc_tang_u_gen (N := XN) PIb (Fin g) (Fin Rr) (Fin 0) (map xv pts)) i = Some (xv (ux, uy, uz)) /\
    blockage Rr r (pz p) k /\ Rabs (uz - g * k) <= Rabs g * e / (2 * PI).
Proof.
  intros PIb e g Rr pts i p HT hR he Hi r NZ. assert (ER : rho p = r) by (unfold rho, r; f_equal; ring). assert (hr : 0 <= r) by apply sqrt_pos. pose proof PI_RGT_0.
  destruct (vcu_at PIb (within e) g Rr pts i p HT hR Hi) as (q & _ & E2 & _ & Hq). rewrite ER in *. do 3 eexists. exists (kz Rr (rax Rr r) (pz p)). split; [exact E2|]. split.
  - apply blockage_rax; auto. apply kz_blockage; auto. apply rax_side; auto.
  - assert (G0 : 0 <= Rabs g * e / (2 * PI)). { apply Rmult_le_pos; [apply Rmult_le_pos; auto; apply Rabs_pos|]. left. apply Rinv_0_lt_compat. lra. }
    rewrite <- Cz_scale. unfold vcR. destruct (rimb_spec Rr r (pz p)) as [Z|Z]; [contradiction|]. unfold rax. destruct (axisb_spec Rr r) as [Y|Y]; cbn [snd].
    + destruct (axis_val g Rr (pz p) hR) as (_ & V2 & _). rewrite V2, Rminus_eq_0, Rabs_R0. auto.
    + destruct (Req_dec r Rr) as [E|NE].
      * unfold Cz, CzP. destruct (Req_EM_T r Rr); [|contradiction]. rewrite Rminus_eq_0, Rabs_R0. auto.
      * eapply Rle_trans; [apply CzP_lip; auto; apply not_rim_off; auto|]. unfold Rdiv. apply Rmult_le_compat_r; [left; apply Rinv_0_lt_compat; lra|]. apply Rmult_le_compat_l; [apply Rabs_pos|].
        apply Hq; auto. unfold regb, rzp; cbn [fst snd]. rewrite ER. destruct (axisb_spec Rr r); [contradiction|]. destruct (rimb_spec Rr r (pz p)) as [Z'|_]; [contradiction|reflexivity].
Qed.
(** inside the tube the induced velocity grows all the way from far upstream to the far wake *)
Theorem C119_monotone_along_the_wake : forall PIb g Rr (pts pts' : list R3) i j p p', third PIb exact3 -> 0 < Rr ->
  nth_error pts i = Some p -> nth_error pts' j = Some p' -> px p' = px p -> py p' = py p -> pz p < pz p' ->
  let r := sqrt (px p ^ 2 + py p ^ 2) in r < Rr -> 1 / 100000000 <= Rabs (r - Rr) / Rr ->
  exists ux uy ux' uy' k k', nth_error (vc_tang_u_gen (N := XN) PIb (Fin g) (Fin Rr) (Fin 0) (map xv pts)) i = Some (xv (ux, uy, g * k)) /\
    nth_error (vc_tang_u_gen (N := XN) PIb (Fin g) (Fin Rr) (Fin 0) (map xv pts')) j = Some (xv (ux', uy', g * k')) /\ 0 < k /\ k < k' /\ k' < 1.
Proof.
  intros PIb g Rr pts pts' i j p p' HT hR Hi Hj EX EY HZ r Hr HO.
  assert (ER : rho p = r) by (unfold rho, r; f_equal; ring). assert (ER' : rho p' = r) by (unfold rho, r; rewrite EX, EY; f_equal; ring).
  assert (hr : 0 <= r) by apply sqrt_pos. destruct (rax_side Rr r hR hr) as (S0 & S1 & _). specialize (S1 Hr).
  do 4 eexists. exists (kz Rr (rax Rr r) (pz p)), (kz Rr (rax Rr r) (pz p')). split; [rewrite <- ER; apply vc_exact; auto; rewrite ER; intros [Q _]; lra|].
  split; [rewrite <- ER'; apply vc_exact; auto; rewrite ER'; intros [Q _]; lra|].
  split; [apply kz_in_pos; auto|]. split; [apply kz_incr; auto|].
  destruct (kz_blockage Rr (rax Rr r) (pz p') hR S0) as (A & _). destruct (A S1) as (A1 & A2 & A3). destruct (Rtotal_order (pz p') 0) as [L|[L|L]]; [specialize (A1 L)|specialize (A2 L)|specialize (A3 L)]; lra.
Qed.
(** C119, radial part, for the code as it is (the radial component does not use the third-kind integral): the flow spreads around
    the wake: with g<0 the induced velocity points away from the axis everywhere *)
Theorem C119_expansion : forall g Rr (pts : list R3) i p, 0 < Rr -> nth_error pts i = Some p ->
  let r := sqrt (px p ^ 2 + py p ^ 2) in
  exists ux uy uz, nth_error (vcU (Fin g) (Fin Rr) (Fin 0) (map xv pts)) i = Some (xv (ux, uy, uz)) /\ g * (ux * px p + uy * py p) <= 0 /\
    (g <> 0 -> 1 / 10000000 * Rr <= r -> ~ (Rabs (r - Rr) / Rr < 1 / 100000000 /\ Rabs (pz p / Rr) < 1 / 100000000) -> g * (ux * px p + uy * py p) < 0).
Proof.
  intros g Rr pts i p hR Hi r. assert (ER : rho p = r) by (unfold rho, r; f_equal; ring). assert (hr : 0 <= r) by apply sqrt_pos.
  destruct (vcu_at _ _ g Rr pts i p third_code hR Hi) as (q & _ & E2 & _). do 3 eexists. split; [exact E2|]. destruct (azim_polar p) as [A1 A2]. rewrite ER in *.
  set (ur := fst (vcR g Rr r (pz p) q)). pose proof (sin2_cos2 (azim p)) as SC. unfold Rsqr in SC.
  assert (EV : g * (ur * cos (azim p) * px p + ur * sin (azim p) * py p) = g * ur * r).
  { rewrite A1, A2. transitivity (g * ur * r * (sin (azim p) * sin (azim p) + cos (azim p) * cos (azim p))); [ring|rewrite SC; ring]. }
  rewrite EV. unfold ur, vcR. pose proof PI_RGT_0.
  destruct (rimb_spec Rr r (pz p)) as [Z|Z]; [cbn [fst]; split; [lra|intros _ _ Q; contradiction]|].
  destruct (axisb_spec Rr r) as [Y|Y]; unfold axis_zone in Y; [cbn [fst]; split; [lra|intros; lra]|]. cbn [fst].
  assert (P : 0 < JJ r Rr (pz p)) by (apply JJ_pos; [lra|auto|apply not_rim_off; auto]).
  assert (P' : 0 < Rr / (4 * PI) * JJ r Rr (pz p) * r). { apply Rmult_lt_0_compat; [|lra]. apply Rmult_lt_0_compat; auto. apply Rmult_lt_0_compat; auto. apply Rinv_0_lt_compat; lra. }
  replace (g * Cr g Rr r (pz p) * r) with (- (g * g * (Rr / (4 * PI) * JJ r Rr (pz p) * r))) by (unfold Cr; field; lra).
  pose proof (Rsq_pos g). split; [nra|]. intros G _ _. pose proof (Rsq_lt g G). nra.
Qed.
(** the hypotheses are met *)
Example C119_case : third PIexact exact3 /\
  ~ (Rabs (sqrt (3 ^ 2 + 4 ^ 2) - 2) / 2 < 1 / 100000000 /\ Rabs (-1 / 2) < 1 / 100000000) /\ blockage 2 5 (-1) (1 / 8) /\
  1 / 10000000 * 2 <= sqrt (3 ^ 2 + 4 ^ 2).
Proof.
  split; [apply C54_exact_exists|]. replace (3 ^ 2 + 4 ^ 2) with (5 * 5) by ring. rewrite sqrt_square by lra. split; [|split; [|lra]].
  - intros [Q _]. rewrite Rabs_right in Q by lra. lra.
  - unfold blockage. repeat split; intros; lra.
Qed.
