(** * C124: what the expansion functions fKzt and fKxit are: the velocities on the fore-aft diameter of the rotor *)
From Coquelicot Require Import Coquelicot.
From Coq Require Import ZArith List Bool Arith Lia String Reals Lra Psatz.
From Verif Require Import Num NumR NumX M_Elliptic M_Line M_Cylinder M_Ring M_Doublet M_Skewed L_List L_X L_Angles L_Built Spec SpecBS L_Calc L_Ell L_Cyl P_Line P_Ring P_Doublet P_Skewed P_Cylinder P_Cylinder2 P_Cylinder3 P_Longi P_Converge P_Potential L_Ellipse P_RotorDisk P_Expansion.
Import ListNotations.
Local Open Scope R_scope.
Local Notation len := List.length.

Lemma even_int (f : R -> R) : (forall x, continuous f x) -> (forall x, f (2 * PI - x) = f x) -> RInt f 0 (2 * PI) = 2 * RInt f 0 PI.
Proof.
  intros Hc He. pose proof PI_RGT_0.
  assert (E : RInt f PI (2 * PI) = RInt f 0 PI).
  { apply RInt_val. apply (is_RInt_ext (fun t => scal (-1) (opp (f (-1 * t + 2 * PI))))).
    - intros t _. change (-1 * - f (-1 * t + 2 * PI) = f t). replace (-1 * t + 2 * PI) with (2 * PI - t) by ring. rewrite He. ring.
    - apply (is_RInt_comp_lin (fun t => opp (f t)) (-1) (2 * PI) PI (2 * PI)). replace (-1 * PI + 2 * PI) with PI by ring. replace (-1 * (2 * PI) + 2 * PI) with 0 by ring.
      replace (RInt f 0 PI) with (opp (opp (RInt f 0 PI))) by (unfold opp; cbn; ring). apply (is_RInt_swap (fun t => opp (f t))). apply (is_RInt_opp f). apply cont_is_RInt. auto. }
  rewrite <- (RInt_Chasles f 0 PI (2 * PI)) by (apply cont_ex_RInt; auto). rewrite E. unfold plus. cbn. ring.
Qed.
Lemma anti_zero (F f : R -> R) a b : F b = F a -> (forall t, is_derive F t (f t)) -> (forall t, continuous f t) -> is_RInt f a b 0.
Proof.
  intros E D C. pose proof (is_RInt_derive F f a b (fun t _ => D t) (fun t _ => C t)) as I. rewrite E in I. unfold minus, plus, opp in I. cbn in I. rewrite Rplus_opp_r in I. exact I.
Qed.
Section Fore.
  Variables (r m : R).
  Hypothesis hr : 0 < r < 1.
  Lemma D2_pos' t : 0 < D2 r t.
  Proof using hr. unfold D2. pose proof (COS_bound t). nra. Qed.
  Definition vv (t : R) : R := sin t / sqrt (D2 r t).
  Definition dv (t : R) : R := (cos t * D2 r t - r * (sin t * sin t)) / (D2 r t * sqrt (D2 r t)).
  Lemma D2_d t : is_derive (D2 r) t (2 * r * sin t).
  Proof using. unfold D2. auto_derive; auto. ring. Qed.
  Lemma vv_d t : is_derive vv t (dv t).
  Proof using hr.
    pose proof (D2_pos' t) as P. assert (S : 0 < sqrt (D2 r t)) by (apply sqrt_lt_R0; auto). assert (SS : sqrt (D2 r t) * sqrt (D2 r t) = D2 r t) by (apply sqrt_sqrt; lra).
    pose proof (D2_d t) as D. pose proof (is_derive_unique (fun x : R => D2 r x) _ _ D) as D'. pose proof (ex_intro _ _ D : ex_derive (fun x => D2 r x) t) as ED.
    unfold vv, dv. auto_derive; [repeat split; auto; lra|]. rewrite D'. set (s := sqrt (D2 r t)) in *. rewrite <- SS. field. lra.
  Qed.
  Lemma den_pos t : 0 < D2 r t + m * m * (sin t * sin t).
  Proof using hr. pose proof (D2_pos' t). assert (0 <= m * m * (sin t * sin t)) by (apply Rmult_le_pos; apply Rsq_pos). lra. Qed.
  Definition cint (t : R) : R := cos t * sqrt (D2 r t) / (D2 r t + m * m * (sin t * sin t)).
  Lemma cint_split t : cint t = r * expansion_integrand m r t + dv t / (1 + m * m * (vv t * vv t)).
  Proof using hr.
    pose proof (D2_pos' t) as P. pose proof (den_pos t) as Q. assert (S : 0 < sqrt (D2 r t)) by (apply sqrt_lt_R0; auto). assert (SS : sqrt (D2 r t) * sqrt (D2 r t) = D2 r t) by (apply sqrt_sqrt; lra).
    unfold cint, expansion_integrand, dv, vv. set (s := sqrt (D2 r t)) in *. set (D := D2 r t) in *. set (sn := sin t) in *. set (cs := cos t) in *. clearbody s D sn cs. subst D.
    field. repeat split; try lra. 
  Qed.
  Lemma cont_of (f : R -> R) t : ex_derive f t -> continuous f t.
  Proof using. intros H. apply (@ex_derive_continuous R_AbsRing R_NormedModule). exact H. Qed.
  Lemma exp_c t : continuous (expansion_integrand m r) t.
  Proof using hr.
    pose proof (D2_pos' t) as P. pose proof (den_pos t) as Q. assert (S : 0 < sqrt (D2 r t)) by (apply sqrt_lt_R0; auto). pose proof (D2_d t) as D. pose proof (ex_intro _ _ D : ex_derive (fun x => D2 r x) t) as ED.
    apply cont_of. unfold expansion_integrand. auto_derive. repeat split; auto. apply Rgt_not_eq, Rmult_lt_0_compat; lra.
  Qed.
  Lemma dv_c t : continuous (fun t => dv t / (1 + m * m * (vv t * vv t))) t.
  Proof using hr.
    pose proof (D2_pos' t) as P. assert (S : 0 < sqrt (D2 r t)) by (apply sqrt_lt_R0; auto). pose proof (D2_d t) as D. pose proof (ex_intro _ _ D : ex_derive (fun x => D2 r x) t) as ED. pose proof (ex_intro _ _ (vv_d t) : ex_derive (fun x => vv x) t) as EV.
    apply cont_of. unfold dv. auto_derive. repeat split; auto; [apply Rgt_not_eq, Rmult_lt_0_compat; lra|]. assert (0 <= m * m * (vv t * vv t)) by (apply Rmult_le_pos; apply Rsq_pos). lra.
  Qed.
  Lemma dv_int : is_RInt (fun t => dv t / (1 + m * m * (vv t * vv t))) 0 (2 * PI) 0.
  Proof using hr.
    assert (V0 : vv 0 = 0) by (unfold vv; rewrite sin_0; unfold Rdiv; ring). assert (V1 : vv (2 * PI) = 0) by (unfold vv; rewrite sin_2PI; unfold Rdiv; ring).
    destruct (Req_dec m 0) as [-> | hm].
    - apply (anti_zero vv); [congruence| |].
      + intros t. replace (dv t / (1 + 0 * 0 * (vv t * vv t))) with (dv t) by (field; lra). apply vv_d.
      + intros t. pose proof (D2_pos' t) as P. assert (S : 0 < sqrt (D2 r t)) by (apply sqrt_lt_R0; auto). pose proof (D2_d t) as D. pose proof (ex_intro _ _ D : ex_derive (fun x => D2 r x) t) as ED.
        apply (continuous_ext dv); [intros s; match goal with |- ?a = ?b => change (@eq R a b) end; field; lra|]. apply cont_of. unfold dv. auto_derive. repeat split; auto; apply Rgt_not_eq, Rmult_lt_0_compat; lra.
    - pose (F := fun t => atan (m * vv t) / m). apply (anti_zero F); [unfold F; congruence| |].
      + intros t. pose proof (vv_d t) as D. pose proof (is_derive_unique (fun x : R => vv x) _ _ D) as D'. pose proof (ex_intro _ _ D : ex_derive (fun x => vv x) t) as ED. unfold F. auto_derive; [auto|]. rewrite D'.
        assert (0 <= m * m * (vv t * vv t)) by (apply Rmult_le_pos; apply Rsq_pos). unfold Rsqr. field. split; auto. nra.
      + intros t. apply dv_c.
  Qed.
  Lemma cint_int : is_RInt cint 0 (2 * PI) (2 * r * RInt (expansion_integrand m r) 0 PI).
  Proof using hr.
    replace (2 * r * RInt (expansion_integrand m r) 0 PI) with (plus (scal r (RInt (expansion_integrand m r) 0 (2 * PI))) 0).
    - apply (is_RInt_ext (fun t => plus (scal r (expansion_integrand m r t)) (dv t / (1 + m * m * (vv t * vv t))))); [intros t _; symmetry; apply cint_split|].
      apply (is_RInt_plus (fun t => scal r (expansion_integrand m r t)) (fun t => dv t / (1 + m * m * (vv t * vv t)))); [apply (is_RInt_scal (expansion_integrand m r)); apply cont_is_RInt, exp_c|apply dv_int].
    - rewrite (even_int (expansion_integrand m r) exp_c); [unfold plus, scal; cbn; unfold mult; cbn; ring|]. intros t. unfold expansion_integrand, D2. replace (2 * PI - t) with (- t + 2 * PI) by ring. rewrite cos_per, sin_per, cos_neg, sin_neg. 
      replace (- sin t * - sin t) with (sin t * sin t) by ring. reflexivity.
  Qed.
End Fore.
(** the difference of the rows seen from two opposite points of the fore-aft diameter *)
Lemma rows_diff g Rr m r th : 0 < Rr -> 0 < r < 1 ->
  px (row_u g Rr m th (r * Rr, 0, 0)) - px (row_u g Rr m (th + PI) (- (r * Rr), 0, 0)) = - (g * sqrt (m * m + 1) / (2 * PI)) * cint r m th.
Proof.
  intros hR hr. pose proof (D2_pos' r hr th) as P. pose proof (den_pos r m hr th) as Q. destruct (c_pos m) as [Hc C2].
  assert (S : 0 < sqrt (D2 r th)) by (apply sqrt_lt_R0; auto). assert (SS : sqrt (D2 r th) * sqrt (D2 r th) = D2 r th) by (apply sqrt_sqrt; lra). pose proof (sin2_cos2 th) as SC. unfold Rsqr in SC.
  set (w := sub3 (r * Rr, 0, 0) (Rr * cos th, Rr * sin th, 0)). set (w' := sub3 (- (r * Rr), 0, 0) (Rr * cos (th + PI), Rr * sin (th + PI), 0)).
  assert (EW : w = (r * Rr - Rr * cos th, - (Rr * sin th), 0)) by (unfold w, sub3, px, py, pz; cbn [fst snd]; apply tri; ring).
  assert (EW' : w' = (- (r * Rr - Rr * cos th), Rr * sin th, 0)) by (unfold w', sub3, px, py, pz; cbn [fst snd]; rewrite neg_cos, neg_sin; apply tri; ring).
  assert (SQ : sqrt (Rr * Rr * D2 r th) = Rr * sqrt (D2 r th)) by (rewrite sqrt_mult, sqrt_square by nra; reflexivity).
  assert (EA : length3 w = Rr * sqrt (D2 r th)). { rewrite <- SQ. unfold length3. f_equal. rewrite EW. unfold inner, px, py, pz, D2. cbn [fst snd]. replace (Rr * Rr * (1 + r * r - 2 * r * cos th)) with (Rr * Rr * ((sin th * sin th + cos th * cos th) + r * r - 2 * r * cos th)) by (rewrite SC; ring). ring. }
  assert (EA' : length3 w' = Rr * sqrt (D2 r th)). { rewrite <- SQ. unfold length3. f_equal. rewrite EW'. unfold inner, px, py, pz, D2. cbn [fst snd]. replace (Rr * Rr * (1 + r * r - 2 * r * cos th)) with (Rr * Rr * ((sin th * sin th + cos th * cos th) + r * r - 2 * r * cos th)) by (rewrite SC; ring). ring. }
  unfold row_u. fold w. fold w'. cbv zeta. rewrite EA, EA', EW, EW'. unfold px, py, pz. cbn [fst snd]. rewrite neg_cos. unfold cint. set (s := sqrt (D2 r th)) in *. set (c := sqrt (m * m + 1)) in *. pose proof PI_RGT_0.
  set (b := m * (r * Rr - Rr * cos th) + 0). replace (m * - (r * Rr - Rr * cos th) + 0) with (- b) by (unfold b; ring).
  assert (DE : (Rr * s * c - b) * (Rr * s * c - - b) = Rr * Rr * (D2 r th + m * m * (sin th * sin th))).
  { replace ((Rr * s * c - b) * (Rr * s * c - - b)) with (Rr * Rr * (s * s) * (c * c) - b * b) by ring. rewrite SS, C2. unfold b, D2. replace (sin th * sin th) with (1 - cos th * cos th) by lra. ring. }
  assert (NZ : 0 < Rr * Rr * (D2 r th + m * m * (sin th * sin th))) by (apply Rmult_lt_0_compat; nra). rewrite <- DE in NZ.
  assert (N1 : Rr * s * c - b <> 0) by (intros E; rewrite E in NZ; lra). assert (N2 : Rr * s * c - - b <> 0) by (intros E; rewrite E in NZ; lra).
  replace (D2 r th + m * m * (sin th * sin th)) with ((Rr * s * c - b) * (Rr * s * c - - b) / (Rr * Rr)) by (rewrite DE; field; lra). clearbody b s c.
  field. repeat split; lra.
Qed.
Lemma fore_in Rr m r : 0 < Rr -> 0 < r < 1 -> in_tube Rr m (r * Rr) 0 0.
Proof. intros hR hr. unfold in_tube. replace ((r * Rr - m * 0) * (r * Rr - m * 0) + 0 * 0) with (r * r * (Rr * Rr)) by ring. assert (0 < Rr * Rr) by nra. assert (r * r < 1) by nra. nra. Qed.
Lemma SV_diff g Rr m r : 0 < Rr -> 0 < r < 1 ->
  px (SV g Rr m (r * Rr, 0, 0)) - px (SV g Rr m (- (r * Rr), 0, 0)) = - (g * sqrt (m * m + 1) / (2 * PI)) * (2 * r * RInt (expansion_integrand m r) 0 PI).
Proof.
  intros hR hr. pose proof (fore_in Rr m r hR hr) as T. pose proof (off_in _ _ _ _ _ T) as O1. pose proof (off_in _ _ _ _ _ (in_opp _ _ _ _ _ T)) as O2. rewrite !Ropp_0 in O2.
  destruct (rowc g Rr m _ O1) as (A1 & _ & _). destruct (rowc g Rr m _ O2) as (B1 & _ & _).
  assert (HP : forall t, px (row_u g Rr m (t + 2 * PI) (- (r * Rr), 0, 0)) = px (row_u g Rr m t (- (r * Rr), 0, 0))) by (intros; rewrite row_per; reflexivity).
  pose proof (is_RInt_minus _ _ _ _ _ _ (cont_is_RInt _ 0 (2 * PI) A1) (half_turn (fun th : R => px (row_u g Rr m th (- (r * Rr), 0, 0))) B1 HP)) as I1.
  assert (I2 : is_RInt (fun th => scal (- (g * sqrt (m * m + 1) / (2 * PI))) (cint r m th)) 0 (2 * PI) (px (SV g Rr m (r * Rr, 0, 0)) - px (SV g Rr m (- (r * Rr), 0, 0)))).
  { eapply is_RInt_ext; [|exact I1]. intros th _. exact (rows_diff g Rr m r th hR hr). }
  rewrite <- (RInt_val _ _ _ _ I2). apply RInt_val. apply (is_RInt_scal (cint r m)). apply cint_int. exact hr.
Qed.
Lemma SV_fore g Rr m r : 0 < Rr -> 0 < r < 1 ->
  SV g Rr m (r * Rr, 0, 0) = (g / 2 * (tan (atan m / 2) - Kxit_exact m r / sqrt (1 + m * m)), 0, g / 2 * (1 + Kzt_exact m r)) /\
  SV g Rr m (- (r * Rr), 0, 0) = (g / 2 * (tan (atan m / 2) + Kxit_exact m r / sqrt (1 + m * m)), 0, g / 2 * (1 - Kzt_exact m r)).
Proof.
  intros hR hr. pose proof (fore_in Rr m r hR hr) as T. pose proof (off_in _ _ _ _ _ T) as O1. pose proof (off_in _ _ _ _ _ (in_opp _ _ _ _ _ T)) as O2.
  destruct (SV_opp g Rr m _ _ _ hR T) as (E1 & E2 & E3). rewrite !Ropp_0 in *. pose proof (SV_diff g Rr m r hR hr) as E4. pose proof (SV_mirror g Rr m _ _ _ O1) as M1. pose proof (SV_mirror g Rr m _ _ _ O2) as M2. rewrite !Ropp_0 in *.
  pose proof (SV_zeta g Rr m _ _ O1) as Z1. assert (HI : r * Rr * (r * Rr) + 0 * 0 < Rr * Rr) by (unfold in_tube in T; rewrite Rmult_0_r, Rminus_0_r in T; exact T).
  rewrite (disk_inside Rr m (r * Rr) 0 hR HI), (gF0 Rr m (r * Rr) 0 hR) in Z1. pose proof PI_RGT_0.
  destruct (SV g Rr m (r * Rr, 0, 0)) as [[a b] d]. destruct (SV g Rr m (- (r * Rr), 0, 0)) as [[a' b'] d']. unfold px, py, pz in *. cbn [fst snd] in *. injection M1 as M1. injection M2 as M2.
  destruct (c_pos m) as [Hc C2]. rewrite (Rplus_comm 1 (m * m)) in *. rewrite tan_half in *. unfold Kxit_exact, Kzt_exact. rewrite (Rplus_comm 1 (m * m)). set (I := RInt _ _ _) in *. rewrite <- C2. set (c := sqrt (m * m + 1)) in *.
  assert (Ea : a = g / 2 * (m / (1 + c) - r * (c * c) / PI * I / c)). { replace (r * (c * c) / PI * I / c) with (c / (2 * PI) * (2 * r * I)) by (field; lra). set (q := c / (2 * PI) * (2 * r * I)). replace (g * c / (2 * PI)) with (g * (c / (2 * PI))) in E4 by (field; lra). assert (a - a' = - (g * q)) by (rewrite E4; unfold q; ring). lra. }
  assert (Zc : g * c / (4 * PI) * (2 * PI) = g * c / 2) by (field; lra). rewrite Zc in Z1.
  assert (MM : c - m * (m / (1 + c)) = 1). { apply (Rmult_eq_reg_r (1 + c)); [|lra]. field_simplify; [|lra]. nra. }
  assert (Ed : d = g / 2 * (1 + r * m * c / PI * I)). { assert (d = g * c / 2 - m * a) by lra. rewrite H0, Ea. replace (g / 2 * (1 + r * m * c / PI * I)) with (g / 2 * ((c - m * (m / (1 + c))) + r * m * c / PI * I)) by (rewrite MM; reflexivity). field. repeat split; lra. }
  assert (QQ : sqrt (c * c) = c) by (apply sqrt_square; lra). rewrite QQ. split; apply tri; lra.
Qed.
Lemma Kzt_pos m r : 0 < m -> 0 < r < 1 -> 0 < Kzt_exact m r.
Proof.
  intros hm hr. pose proof PI_RGT_0. assert (S : 0 < sqrt (1 + m * m)) by (apply sqrt_lt_R0; pose proof (Rsq_pos m); lra). unfold Kzt_exact. apply Rmult_lt_0_compat; [apply Rdiv_lt_0_compat; auto; repeat apply Rmult_lt_0_compat; lra|].
  apply RInt_gt_0; [lra| |intros t _; apply exp_c; exact hr]. intros t Ht. pose proof (D2_pos' r hr t). pose proof (den_pos r m hr t). assert (0 < sin t) by (apply sin_gt_0; lra). unfold expansion_integrand. apply Rdiv_lt_0_compat; [apply Rmult_lt_0_compat; auto|]. apply Rmult_lt_0_compat; auto. apply sqrt_lt_R0; auto.
Qed.
(** C124: fKzt is the relative variation of the axial velocity along the fore-aft diameter, for any exact third-kind routine *)
Theorem C124_fKzt_is_the_fore_aft_variation : forall PIb, third PIb exact3 -> forall g Rr m r, 0 < Rr -> 0 < r < 1 -> m <> 0 ->
  exists K ux ux', fKzt_gen (N := XN) PIb [Fin r] (Fin m) 1 = Ok [[Fin K]] /\
    skewed_velocity g Rr m (r * Rr, 0, 0) (ux, 0, g / 2 * (1 + K)) /\
    skewed_velocity g Rr m (- (r * Rr), 0, 0) (ux', 0, g / 2 * (1 - K)) /\
    ux = g / 2 * (tan (atan m / 2) - K / m) /\ ux' = g / 2 * (tan (atan m / 2) + K / m) /\ (0 < m -> 0 < K).
Proof.
  intros PIb HP g Rr m r hR hr hm. pose proof (fore_in Rr m r hR hr) as T. pose proof (off_in _ _ _ _ _ T) as O1. pose proof (off_in _ _ _ _ _ (in_opp _ _ _ _ _ T)) as O2. rewrite !Ropp_0 in O2.
  destruct (SV_fore g Rr m r hR hr) as [E1 E2]. pose proof (SV_ok g Rr m _ O1) as K1. pose proof (SV_ok g Rr m _ O2) as K2. rewrite E1 in K1. rewrite E2 in K2.
  exists (Kzt_exact m r), (g / 2 * (tan (atan m / 2) - Kxit_exact m r / sqrt (1 + m * m))), (g / 2 * (tan (atan m / 2) + Kxit_exact m r / sqrt (1 + m * m))).
  destruct (C69_Kzt_is_coleman PIb HP m [r] 1 hm ltac:(constructor; [exact hr|constructor]) ltac:(lia)) as [rest ER].
  assert (S : 0 < sqrt (1 + m * m)) by (apply sqrt_lt_R0; pose proof (Rsq_pos m); lra).
  assert (EK : Kxit_exact m r / sqrt (1 + m * m) = Kzt_exact m r / m) by (rewrite exact_relation by auto; field; split; lra).
  split; [|split; [exact K1|split; [exact K2|rewrite EK; split; [reflexivity|split; [reflexivity|intros; apply Kzt_pos; auto]]]]].
  cbn [map] in ER. rewrite ER. unfold fKzt_gen in ER. change (neqb XN (Fin m) (nZ XN 0)) with (Reqb m 0) in ER. assert (RQ : Reqb m 0 = false) by (apply Reqb_false; auto). rewrite RQ in ER. cbn [Nat.leb firstn] in ER. injection ER as _ <-. reflexivity.
Qed.
(** C124: without skew fKxit is the radial velocity in the rotor plane, as the code computes it *)
Theorem C124_fKxit_is_the_radial_velocity : forall PIb g Rr r, 0 < Rr -> eps_axis < r < 1 ->
  exists K num oye, fKxit_gen (N := XN) PIb [Fin r] (Fin 0) = Ok ([Fin K], num, oye) /\
    skewed_velocity g Rr 0 (r * Rr, 0, 0) (- (g / 2) * K, 0, g / 2) /\
    skewed_velocity g Rr 0 (- (r * Rr), 0, 0) (g / 2 * K, 0, g / 2).
Proof.
  intros PIb g Rr r hR he. assert (hr : 0 < r < 1) by (unfold eps_axis in he; lra). pose proof (fore_in Rr 0 r hR hr) as T. pose proof (off_in _ _ _ _ _ T) as O1. pose proof (off_in _ _ _ _ _ (in_opp _ _ _ _ _ T)) as O2. rewrite !Ropp_0 in O2.
  destruct (SV_fore g Rr 0 r hR hr) as [E1 E2]. pose proof (SV_ok g Rr 0 _ O1) as K1. pose proof (SV_ok g Rr 0 _ O2) as K2. rewrite E1 in K1. rewrite E2 in K2.
  destruct (C69_Kxit_straight PIb [r] ltac:(constructor; [exact hr|constructor]) ltac:(constructor; [apply he|constructor])) as (num & oye & ER). exists (Kxit_exact 0 r), num, oye. split; [exact ER|].
  assert (Z : Kzt_exact 0 r = 0) by (unfold Kzt_exact; unfold Rdiv; ring). assert (A : tan (atan 0 / 2) = 0) by (rewrite atan_0; unfold Rdiv; rewrite Rmult_0_l; apply tan_0). assert (Q : sqrt (1 + 0 * 0) = 1) by (rewrite Rmult_0_l, Rplus_0_r; apply sqrt_1).
  rewrite Z, A, Q in K1, K2. 
  replace (- (g / 2) * Kxit_exact 0 r) with (g / 2 * (0 - Kxit_exact 0 r / 1)) by field. replace (g / 2) with (g / 2 * (1 + 0)) at 2 by ring. split; [exact K1|].
  replace (g / 2 * Kxit_exact 0 r) with (g / 2 * (0 + Kxit_exact 0 r / 1)) by field. replace (g / 2) with (g / 2 * (1 - 0)) at 2 by ring. exact K2.
Qed.
Example C124_case : third PIexact exact3 /\ 0 < 1 / 2 < 1 /\ eps_axis < 1 / 2 < 1 /\ tan (PI / 6) <> 0.
Proof.
  split; [apply C54_exact_exists|]. split; [lra|]. split; [unfold eps_axis; lra|]. pose proof PI_RGT_0. apply Rgt_not_eq, tan_gt_0; lra.
Qed.
