(** * Improper integrals over (0, infinity): substitution, comparison *)
From Coquelicot Require Import Coquelicot.
From Coq Require Import Reals Lra Psatz.
From Verif Require Import NumR Spec SpecBS L_Calc.
Local Open Scope R_scope.

Notation oo := (Rbar_locally p_infty).
Notation "0+" := (at_right 0).

Lemma prod_pos (P : R * R -> Prop) : (forall a b, 0 < a -> a < 1 -> 1 < b -> P (a, b)) -> filter_prod 0+ oo P.
Proof.
  intros H. apply (Filter_prod _ _ _ (fun a => 0 < a /\ a < 1) (fun b => 1 < b)).
  - exists (mkposreal 1 Rlt_0_1). intros y Hy H0. unfold ball in Hy; cbn in Hy; unfold AbsRing_ball, abs, minus, plus, opp in Hy; cbn in Hy.
    rewrite Ropp_0, Rplus_0_r in Hy. apply Rabs_def2 in Hy. lra.
  - exists 1. auto.
  - intros x y [H1 H2] H3. apply H; auto.
Qed.
Lemma gen_comp (f phi dphi : R -> R) Ga Gb (l : R) {FGa : Filter Ga} {FGb : Filter Gb} :
  is_RInt_gen f Ga Gb l -> filterlim phi 0+ Ga -> filterlim phi oo Gb ->
  (forall t, 0 < t -> continuous f (phi t) /\ is_derive phi t (dphi t) /\ continuous dphi t) ->
  is_RInt_gen (fun t => dphi t * f (phi t)) 0+ oo l.
Proof.
  intros H La Lb HT P HP. specialize (H P HP). destruct H as [Q S HQ HS H].
  assert (FP : Filter (filter_prod 0+ oo)) by typeclasses eauto.
  unfold filtermapi.
  assert (H1 : filter_prod 0+ oo (fun ab => Q (phi (fst ab)) /\ S (phi (snd ab)))).
  { apply (Filter_prod _ _ _ (fun a => Q (phi a)) (fun b => S (phi b))); [apply La, HQ|apply Lb, HS|]. intros; split; auto. }
  assert (H2 : filter_prod 0+ oo (fun ab => 0 < fst ab /\ fst ab < snd ab)).
  { apply prod_pos. intros; cbn; lra. }
  generalize (filter_and _ _ H1 H2). apply filter_imp. intros [a b] [[HA HB] [H0 HL]]. cbn [fst snd] in *.
  destruct (H _ _ HA HB) as [y [Iy Py]]. cbn [fst snd] in Iy. exists y. split; auto.
  rewrite <- (is_RInt_unique _ _ _ _ Iy).
  apply (is_RInt_comp f phi dphi); intros x Hx; rewrite Rmin_left, Rmax_right in Hx by lra; apply HT; lra.
Qed.
(** comparison *)
Lemma gen_le (f g : R -> R) (lf lg : R) : is_RInt_gen f 0+ oo lf -> is_RInt_gen g 0+ oo lg ->
  (forall t, 0 < t -> f t <= g t) -> lf <= lg.
Proof.
  intros Hf Hg HL.
  apply Rnot_lt_le. intros C. set (e := (lf - lg) / 2). assert (He : 0 < e) by (unfold e; lra).
  assert (P1 : locally lf (fun y => lf - e < y)).
  { exists (mkposreal e He). intros y Hy. unfold ball in Hy; cbn in Hy; unfold AbsRing_ball, abs, minus, plus, opp in Hy; cbn in Hy. apply Rabs_def2 in Hy. lra. }
  assert (P2 : locally lg (fun y => y < lg + e)).
  { exists (mkposreal e He). intros y Hy. unfold ball in Hy; cbn in Hy; unfold AbsRing_ball, abs, minus, plus, opp in Hy; cbn in Hy. apply Rabs_def2 in Hy. lra. }
  assert (FP : ProperFilter (filter_prod 0+ oo)) by typeclasses eauto.
  pose proof (Hf _ P1) as K1. pose proof (Hg _ P2) as K2. unfold filtermapi in K1, K2.
  pose proof (filter_and _ _ (filter_and _ _ K1 K2) (prod_pos (fun ab => 0 < fst ab /\ fst ab < snd ab) ltac:(intros; cbn; lra))) as K.
  apply filter_ex in K. destruct K as [[a b] [[(y1 & I1 & H1) (y2 & I2 & H2)] [H0 H3]]]. cbn [fst snd] in *.
  assert (y1 <= y2). { apply (is_RInt_le f g a b); auto; [lra|]. intros x Hx. apply HL. lra. }
  unfold e in *. lra.
Qed.
Lemma gen_ext (f g : R -> R) (l : R) : (forall t, 0 < t -> f t = g t) -> is_RInt_gen f 0+ oo l -> is_RInt_gen g 0+ oo l.
Proof.
  intros H. apply is_RInt_gen_ext. apply prod_pos. intros a b Ha H1 Hb x Hx. cbn [fst snd] in *.
  rewrite Rmin_left in Hx by lra. apply H. lra.
Qed.
Lemma gen_unique (f : R -> R) (l1 l2 : R) : is_RInt_gen f 0+ oo l1 -> is_RInt_gen f 0+ oo l2 -> l1 = l2.
Proof. intros A B. rewrite <- (is_RInt_gen_unique _ _ A). apply is_RInt_gen_unique; auto. Qed.
(** fundamental theorem on (0,oo) *)
Lemma gen_antideriv (f F : R -> R) (l0 l1 : R) :
  (forall x, 0 < x -> is_derive F x (f x) /\ continuous f x) ->
  filterlim F 0+ (locally l0) -> filterlim F oo (locally l1) -> is_RInt_gen f 0+ oo (l1 - l0).
Proof.
  intros HD L0 L1 P HP.
  assert (FP : Filter (filter_prod 0+ oo)) by typeclasses eauto. unfold filtermapi.
  assert (LM : filterlim (fun ab => minus (F (snd ab)) (F (fst ab))) (filter_prod 0+ oo) (locally (l1 - l0))).
  { apply (filterlim_comp_2 (G := locally l1) (H := locally (opp l0)) (F := filter_prod 0+ oo) (fun ab => F (snd ab)) (fun ab => opp (F (fst ab))) plus).
    - apply (filterlim_comp _ _ _ snd F _ oo); [apply filterlim_snd|auto].
    - apply (filterlim_comp _ _ _ (fun ab => F (fst ab)) opp _ (locally l0)); [apply (filterlim_comp _ _ _ fst F _ 0+); [apply filterlim_fst|auto]|apply (filterlim_opp (V := R_NormedModule) l0)].
    - apply (filterlim_plus (V := R_NormedModule) l1 (opp l0)). }
  pose proof (LM P HP) as K. unfold filtermap in K. generalize (filter_and _ _ K (prod_pos (fun ab => 0 < fst ab /\ fst ab < snd ab) ltac:(intros; cbn; lra))). apply filter_imp.
  intros [a b] [H1 [H2 H3]]. cbn [fst snd] in *. eexists. split; [|exact H1].
  apply (is_RInt_derive F f); intros x Hx; rewrite Rmin_left in Hx by lra; apply HD; lra.
Qed.
Lemma lim_right (F : R -> R) (a : R) : continuous F a -> filterlim F (at_right a) (locally (F a)).
Proof. intros H. eapply filterlim_filter_le_1; [|exact H]; apply filter_le_within. Qed.
Lemma lim_left (F : R -> R) (a : R) : continuous F a -> filterlim F (at_left a) (locally (F a)).
Proof. intros H. eapply filterlim_filter_le_1; [|exact H]; apply filter_le_within. Qed.
Lemma lim_right_right (F : R -> R) (a b : R) : continuous F a -> F a = b -> (forall t, a < t -> b < F t) -> filterlim F (at_right a) (at_right b).
Proof.
  intros H E HT P [eps HP]. unfold filtermap. pose proof (lim_right F a H) as L. rewrite E in L.
  assert (K : locally b (fun y => ball b eps y)) by (exists eps; auto).
  specialize (L _ K). unfold filtermap in L. destruct L as [d Hd]. exists d. intros t Ht Ha. apply HP; [apply Hd; auto|apply HT; auto].
Qed.
Lemma lim_oo_oo (F : R -> R) (c k : R) : 0 < c -> (forall t, 0 < t -> c * t - k <= F t) -> filterlim F oo oo.
Proof.
  intros hc H P [M HM]. unfold filtermap. exists (Rmax 0 ((M + k) / c)). intros t Ht. apply HM.
  pose proof (Rmax_l 0 ((M + k) / c)). pose proof (Rmax_r 0 ((M + k) / c)).
  assert (0 < t) by lra. specialize (H t H2). assert ((M + k) / c < t) by lra.
  apply (Rmult_lt_compat_l c) in H3; [|auto]. replace (c * ((M + k) / c)) with (M + k) in H3 by (field; lra). lra.
Qed.
