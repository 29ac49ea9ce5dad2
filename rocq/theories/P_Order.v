(** * C145: only the set of points matters *)
From Coq Require Import ZArith List Bool Arith Lia Reals Lra String.
From Flocq Require Import Core BinarySingleNaN.
From Verif Require Import Num NumR NumX NumF M_Elliptic M_Ring M_Doublet M_Cylinder M_Skewed M_Turbine M_Farm L_List.
Import ListNotations.
Local Open Scope list_scope.
Local Notation len := List.length.

(** ** Specification *)
(** two batches hold the same points, in any order and any number of times *)
Definition same_points {A} (l l' : list A) : Prop := forall p, In p l <-> In p l'.
(** the answers [us] to the batch [l] and [us'] to the batch [l'] are one function of the point *)
Definition agree {A B} (l : list A) (us : list B) (l' : list A) (us' : list B) : Prop :=
  len us = len l /\ len us' = len l' /\
  forall i j p, nth_error l i = Some p -> nth_error l' j = Some p -> nth_error us i = nth_error us' j.
(** two outcomes: both raise the same exception, or both answer and agree *)
Definition same_answers {A B} (l : list A) (r : result (list B)) (l' : list A) (r' : result (list B)) : Prop :=
  match r, r' with
  | Ok us, Ok us' => agree l us l' us'
  | Err e, Err e' => e = e'
  | _, _ => False
  end.

(** ** The stopping tests do not depend on the order: arithmetics in which "the maximum exceeds t" depends on the set only *)
Definition max_law (N : Num) : Prop := forall (l l' : list N) (t : N), same_points l l' -> nlt N t (amax l) = nlt N t (amax l').

Lemma max_law_of (N : Num) (isnan : N -> bool) :
  (forall t a, isnan a = true -> nlt N t a = false) ->
  (forall t a b, nlt N t (nmax N a b) = negb (isnan a) && negb (isnan b) && (nlt N t a || nlt N t b)) ->
  (forall a b, isnan (nmax N a b) = isnan a || isnan b) ->
  max_law N.
Proof.
  intros H1 H2 H3.
  assert (NM : forall l a, isnan (fold_left (nmax N) l a) = existsb isnan (a :: l)).
  { induction l as [|b l IH]; intros a; cbn [fold_left existsb]; [rewrite orb_false_r; reflexivity|].
    rewrite IH. cbn [existsb]. rewrite H3, orb_assoc. reflexivity. }
  assert (LM : forall t l a, nlt N t (fold_left (nmax N) l a) = negb (existsb isnan (a :: l)) && existsb (nlt N t) (a :: l)).
  { intros t. induction l as [|b l IH]; intros a; cbn [fold_left existsb].
    - rewrite !orb_false_r. destruct (isnan a) eqn:E; [rewrite (H1 _ _ E); reflexivity|reflexivity].
    - rewrite IH. cbn [existsb]. rewrite H3, H2. destruct (isnan a), (isnan b), (existsb isnan l); cbn; try reflexivity.
      rewrite orb_assoc. reflexivity. }
  assert (S : forall (g : N -> bool) l l', same_points l l' -> existsb g l = existsb g l').
  { intros g l l' E. apply eq_true_iff_eq. rewrite !existsb_exists. split; intros (x & I & G); exists x; split; auto; apply E; exact I. }
  intros l l' t E. destruct l as [|a l], l' as [|a' l'].
  - reflexivity.
  - exfalso. apply (proj2 (E a')). left. reflexivity.
  - exfalso. apply (proj1 (E a)). left. reflexivity.
  - cbn [amax]. rewrite !LM. rewrite (S isnan _ _ E), (S (nlt N t) _ _ E). reflexivity.
Qed.
Lemma XN_max : max_law XN.
Proof.
  apply (max_law_of XN (fun a => match a with NaN => true | _ => false end)).
  - intros t a. destruct a; try discriminate. intros _. destruct t; reflexivity.
  - intros t a b. change (nlt XN) with xlt. change (nmax XN) with xmax. destruct t, a, b; cbn; try reflexivity; try (rewrite ?orb_true_r, ?orb_false_r; reflexivity).
    apply eq_true_iff_eq. rewrite orb_true_iff, !Rltb_true. unfold Rmax. destruct (Rle_dec r0 r1); split; intros; try tauto; try lra; destruct H; lra.
  - intros a b. change (nmax XN) with xmax. destruct a, b; reflexivity.
Qed.
(** binary64 compares as the extended reals do *)
Definition X_of (a : F) : X :=
  match a with B754_nan => NaN | B754_infinity s => if s then MInf else PInf | B754_zero _ => Fin 0 | B754_finite _ _ _ _ => Fin (B2R a) end.
Lemma X_fin a : is_finite a = true -> X_of a = Fin (B2R a).
Proof. destruct a; cbn; try discriminate; reflexivity. Qed.
Lemma X_lt (a b : F) : Bltb a b = xlt (X_of a) (X_of b).
Proof.
  destruct (is_finite a) eqn:Fa; destruct (is_finite b) eqn:Fb.
  - rewrite (X_fin a Fa), (X_fin b Fb), Bltb_correct by assumption. cbn. destruct (Rlt_bool_spec (B2R a) (B2R b)).
    + symmetry. apply Rltb_true. assumption.
    + symmetry. apply Rltb_false. lra.
  - rewrite (X_fin a Fa). destruct a as [s| | |s m e h]; try discriminate; destruct b as [|[|]| |]; try discriminate; try reflexivity; destruct s; reflexivity.
  - rewrite (X_fin b Fb). destruct b as [s| | |s m e h]; try discriminate; destruct a as [|[|]| |]; try discriminate; try reflexivity; destruct s; reflexivity.
  - destruct a as [|[|]| |], b as [|[|]| |]; try discriminate; reflexivity.
Qed.
Lemma X_max (a b : F) : X_of (fmaxi a b) = xmax (X_of a) (X_of b).
Proof.
  destruct (is_finite a) eqn:Fa; destruct (is_finite b) eqn:Fb.
  - assert (E : fmaxi a b = if Bltb a b then b else a) by (destruct a, b; try discriminate; reflexivity).
    rewrite E, X_lt, (X_fin a Fa), (X_fin b Fb). cbn [xlt xmax]. unfold Rmax. destruct (Rle_dec (B2R a) (B2R b)) as [h|h].
    + destruct (Rltb (B2R a) (B2R b)) eqn:R; [apply X_fin, Fb|]. apply Rltb_false in R. rewrite (X_fin a Fa). f_equal. lra.
    + replace (Rltb (B2R a) (B2R b)) with false by (symmetry; apply Rltb_false; lra). apply X_fin, Fa.
  - rewrite (X_fin a Fa). destruct a as [s| | |s m e h]; try discriminate; destruct b as [|[|]| |]; try discriminate; try reflexivity; destruct s; reflexivity.
  - rewrite (X_fin b Fb). destruct b as [s| | |s m e h]; try discriminate; destruct a as [|[|]| |]; try discriminate; try reflexivity; destruct s; reflexivity.
  - destruct a as [|[|]| |], b as [|[|]| |]; try discriminate; reflexivity.
Qed.
Lemma X_amax L (l : list (FN L)) : X_of (amax (N := FN L) l) = amax (N := XN) (map X_of l).
Proof.
  destruct l as [|a l]; [reflexivity|]. cbn [map amax]. revert a. induction l as [|b l IH]; intros a; cbn [map fold_left]; [reflexivity|].
  rewrite IH. f_equal. apply X_max.
Qed.
Lemma same_map {A B} (f : A -> B) l l' : same_points l l' -> same_points (map f l) (map f l').
Proof. intros H p. rewrite !in_map_iff. split; intros (x & E & I); exists x; split; auto; apply H; exact I. Qed.
Lemma FN_max L : max_law (FN L).
Proof.
  intros l l' t S. refine (eq_trans (X_lt _ _) (eq_trans _ (eq_sym (X_lt _ _)))).
  rewrite !X_amax. apply XN_max, same_map, S.
Qed.

(** ** Batch functions that are a function of the point once the set is fixed *)
Definition setlike {A B} (k : list A -> list B) : Prop := forall l, exists f, forall l', same_points l l' -> k l' = map f l'.
Definition setlikeR {A B} (k : list A -> result (list B)) : Prop := forall l,
  (exists e, forall l', same_points l l' -> k l' = Err e) \/ (exists f, forall l', same_points l l' -> k l' = Ok (map f l')).
Lemma same_refl {A} (l : list A) : same_points l l.
Proof. intros p; tauto. Qed.
Lemma same_filter {A} (t : A -> bool) l l' : same_points l l' -> same_points (filter t l) (filter t l').
Proof. intros H p. rewrite !filter_In, (H p). tauto. Qed.
Lemma same_existsb {A} (g : A -> bool) l l' : same_points l l' -> existsb g l = existsb g l'.
Proof. intros E. apply eq_true_iff_eq. rewrite !existsb_exists. split; intros (x & I & G); exists x; split; auto; apply E; exact I. Qed.
Lemma map2_map {A B C D} (h : B -> C -> D) (f : A -> B) (g : A -> C) l : map2 h (map f l) (map g l) = map (fun a => h (f a) (g a)) l.
Proof. induction l as [|a l IH]; cbn; [|rewrite IH]; reflexivity. Qed.
Lemma scatter_map {A B} (t : A -> bool) (f g : A -> B) l : scatter (map t l) (map f (filter t l)) (map g l) = map (fun a => if t a then f a else g a) l.
Proof. induction l as [|a l IH]; [reflexivity|]. cbn [map scatter filter]. destruct (t a); cbn [map scatter]; rewrite IH; reflexivity. Qed.

Lemma sl_map {A B} (f : A -> B) : setlike (map f).
Proof. intros l. exists f. reflexivity. Qed.
Lemma sl_pre {A B C} (h : A -> B) (k : list B -> list C) : setlike k -> setlike (fun l => k (map h l)).
Proof. intros H l. destruct (H (map h l)) as [f Hf]. exists (fun a => f (h a)). intros l' S. rewrite (Hf _ (same_map h _ _ S)). apply map_map. Qed.
Lemma sl_post {A B C} (h : B -> C) (k : list A -> list B) : setlike k -> setlike (fun l => map h (k l)).
Proof. intros H l. destruct (H l) as [f Hf]. exists (fun a => h (f a)). intros l' S. rewrite (Hf _ S). apply map_map. Qed.
Lemma sl_map2 {A B C D} (h : B -> C -> D) (k1 : list A -> list B) (k2 : list A -> list C) : setlike k1 -> setlike k2 -> setlike (fun l => map2 h (k1 l) (k2 l)).
Proof.
  intros H1 H2 l. destruct (H1 l) as [f1 F1], (H2 l) as [f2 F2]. exists (fun a => h (f1 a) (f2 a)). intros l' S. rewrite (F1 _ S), (F2 _ S). apply map2_map.
Qed.
Lemma sl_id2 {A C D} (h : A -> C -> D) (k2 : list A -> list C) : setlike k2 -> setlike (fun l => map2 h l (k2 l)).
Proof. intros H l. destruct (sl_map2 h (map (fun a => a)) k2 (sl_map _) H l) as [f Hf]. exists f. intros l' S. rewrite <- (Hf _ S), map_id. reflexivity. Qed.
Lemma sl_mask {A B} (t : A -> bool) (k : list A -> list B) (g : A -> B) : setlike k ->
  setlike (fun l => scatter (map t l) (k (filter t l)) (map g l)).
Proof.
  intros H l. destruct (H (filter t l)) as [f Hf]. exists (fun a => if t a then f a else g a). intros l' S.
  rewrite (Hf _ (same_filter t _ _ S)). apply scatter_map.
Qed.
Lemma sl_ext {A B} (k k' : list A -> list B) : (forall l, k l = k' l) -> setlike k -> setlike k'.
Proof. intros E H l. destruct (H l) as [f Hf]. exists f. intros l' S. rewrite <- E. apply Hf, S. Qed.

Section Kernels.
  Context {N : Num} (ML : max_law N).
  (** ** elliptic.py *)
  Lemma resid_set {A} (f g : A -> N) l l' t : same_points l l' -> nlt N t (resid (map f l) (map g l)) = nlt N t (resid (map f l') (map g l')).
  Proof. intros S. unfold resid. rewrite !map2_map. apply ML, same_map, S. Qed.
  Lemma rf_set {A} tol (l : list A) : forall fuel (st : A -> N * N * N) (o : A -> N) b,
    exists f, forall l' res, same_points l l' -> nlt N tol res = b -> rf_loop tol fuel res (map st l') (map o l') = map f l'.
  Proof.
    induction fuel as [|fuel IH]; intros st o b; cbn [rf_loop].
    - exists o. reflexivity.
    - destruct b.
      + destruct (IH (fun a => rf_next (st a)) (fun a => rf_val (st a)) (nlt N tol (resid (map (fun a => rf_val (st a)) l) (map o l)))) as [f Hf].
        exists f. intros l' res S E. rewrite E. rewrite !map_map. apply Hf; auto. symmetry. apply resid_set, S.
      + exists o. intros l' res S E. rewrite E. reflexivity.
  Qed.
  Lemma rc_set {A} tol (l : list A) : forall fuel (st : A -> N * N) (o : A -> N) b,
    exists f, forall l' res, same_points l l' -> nlt N tol res = b -> rc_loop tol fuel res (map st l') (map o l') = map f l'.
  Proof.
    induction fuel as [|fuel IH]; intros st o b; cbn [rc_loop].
    - exists o. reflexivity.
    - destruct b.
      + destruct (IH (fun a => rc_next (st a)) (fun a => rc_val (st a)) (nlt N tol (resid (map (fun a => rc_val (st a)) l) (map o l)))) as [f Hf].
        exists f. intros l' res S E. rewrite E. rewrite !map_map. apply Hf; auto. symmetry. apply resid_set, S.
      + exists o. intros l' res S E. rewrite E. reflexivity.
  Qed.
  Lemma RF_set tol it : setlike (RF_tol (N := N) tol it).
  Proof. intros l. destruct (rf_set tol l it (fun y => (nZ N 0, y, nZ N 1)) (fun _ => nZ N 0) (nlt N tol (nZ N 1))) as [f Hf]. exists f. intros l' S. apply Hf; auto. Qed.
  Lemma RC_set tol it : setlike (RC_tol (N := N) tol it).
  Proof.
    intros l. destruct (rc_set tol l it (fun y => y) (fun _ => nZ N 0) (nlt N tol (nZ N 1))) as [f Hf]. exists f. intros l' S.
    specialize (Hf l' (nZ N 1) S eq_refl). rewrite map_id in Hf. exact Hf.
  Qed.
  Lemma rj_set {A} tol it (l : list A) : forall fuel n (st : A -> N * N * N * N) (r o : A -> N) b,
    exists f, forall l' res, same_points l l' -> nlt N tol res = b -> rj_loop tol it fuel n res (map st l') (map r l') (map o l') = map f l'.
  Proof.
    induction fuel as [|fuel IH]; intros n st r o b; cbn [rj_loop].
    - exists o. reflexivity.
    - destruct b.
      + destruct (RC_set tol it (map (fun a => rj_alfa_bet (st a)) l)) as [c Hc].
        set (r' := fun a => nadd N (r a) (nmul N (nmul N (nZ N 3) (inv4 n)) (c (rj_alfa_bet (st a))))).
        set (o' := fun a => nadd N (r' a) (rj_rhs2 n (st a))).
        destruct (IH (S n) (fun a => rj_next (st a)) r' o' (nlt N tol (resid (map o' l) (map o l)))) as [f Hf].
        exists f. intros l' res S E. rewrite E.
        assert (ER : rj_rhs1 tol it n (map st l') (map r l') = map r' l').
        { unfold rj_rhs1. rewrite map_map, (Hc _ (same_map _ _ _ S)), map_map, map2_map. reflexivity. }
        rewrite ER, !map_map, map2_map. apply Hf; auto. symmetry. apply resid_set, S.
      + exists o. intros l' res S E. rewrite E. reflexivity.
  Qed.
  Lemma RJ_set tol it : setlike (RJ_tol (N := N) tol it).
  Proof.
    apply (sl_ext (fun yr => scatter (map (fun p => nlt N (nZ N 0) (snd p)) yr)
      ((fun sel => rj_loop tol it it 0 (nZ N 1) (map (fun p => ((nZ N 0, fst p, nZ N 1), snd p)) sel) (map (fun _ => nZ N 0) sel) (map (fun _ => nZ N 0) sel))
        (filter (fun p => nlt N (nZ N 0) (snd p)) yr)) (map (fun _ => ninf N) yr))).
    - intros yr. unfold RJ_tol. cbv zeta. rewrite gather_map, gather_map_filter, !map_map. reflexivity.
    - apply (sl_mask (fun p : N * N => nlt N (nZ N 0) (snd p)) (fun sel => rj_loop tol it it 0 (nZ N 1) (map (fun p => ((nZ N 0, fst p, nZ N 1), snd p)) sel) (map (fun _ => nZ N 0) sel) (map (fun _ => nZ N 0) sel))).
      intros l. destruct (rj_set tol it l it 0 (fun p => ((nZ N 0, fst p, nZ N 1), snd p)) (fun _ => nZ N 0) (fun _ => nZ N 0) (nlt N tol (nZ N 1))) as [f Hf].
      exists f. intros l' S. apply Hf; auto.
  Qed.
  Lemma Pi_set : setlike (ellipticPiCarlson (N := N)).
  Proof.
    apply (sl_ext (fun nm => map2 (fun rf q => nadd N rf q) (RF_tol RES ITMAX (map (fun p => nsub N (nZ N 1) (snd p)) nm))
      (map2 (fun p rj => nmul N (nmul N (nQ N 1 3) (fst p)) rj) nm (RJ_tol RES ITMAX (map (fun p => (nsub N (nZ N 1) (snd p), nsub N (nZ N 1) (fst p))) nm))))).
    - intros nm. destruct nm as [|p nm]; [|reflexivity]. cbn [map map2]. destruct (RF_tol RES ITMAX []); reflexivity.
    - apply sl_map2; [apply sl_pre, RF_set|]. apply sl_id2, (sl_pre (fun p : N * N => (nsub N (nZ N 1) (snd p), nsub N (nZ N 1) (fst p)))), RJ_set.
  Qed.
  (** ** VortexCylinder.py *)
  Lemma vc_polar_set g R e : setlike (vc_tang_polar (N := N) g R e).
  Proof.
    apply (sl_ext (fun pts => (fun rz => scatter (map (vc_normal R) rz)
      ((fun sel => map2 (vc_reg g e R) sel (ellipticPiCarlson (map (vc_nm e R) sel))) (filter (vc_normal R) rz)) (map (vc_special g R) rz))
      (map (fun p => (vc_r p, snd p)) pts))).
    - intros pts. unfold vc_tang_polar, vc_tang_polar_gen. cbv zeta. rewrite gather_map_filter. reflexivity.
    - apply (sl_pre (fun p : N * N * N => (vc_r p, snd p)) (fun rz => scatter (map (vc_normal R) rz)
      ((fun sel => map2 (vc_reg g e R) sel (ellipticPiCarlson (map (vc_nm e R) sel))) (filter (vc_normal R) rz)) (map (vc_special g R) rz))).
      apply (sl_mask (vc_normal R) (fun sel => map2 (vc_reg g e R) sel (ellipticPiCarlson (map (vc_nm e R) sel)))). apply sl_id2. apply (sl_pre (vc_nm e R)), Pi_set.
  Qed.
  Lemma vc_tang_set g R e : setlike (vc_tang_u (N := N) g R e).
  Proof. unfold vc_tang_u, vc_tang_u_gen. apply sl_id2, vc_polar_set. Qed.
  Lemma vc_longi_set g R po : setlike (vc_longi_u (N := N) g R po).
  Proof.
    unfold vc_longi_u, vc_longi_u_gen. apply (sl_pre to_polar). unfold vc_longi_u_polar_gen. apply sl_id2.
    apply (sl_pre (fun p : N * N * N => (fst (fst p), snd p)) (fun rz => map2 (vc_longi_upsi g R) rz (ellipticPiCarlson (map (vc_longi_nm R) rz)))).
    apply sl_id2, (sl_pre (vc_longi_nm R)), Pi_set.
  Qed.
  Lemma cyl_fin_set g R z1 z2 : setlike (cylinder_tang_u (N := N) g R z1 z2).
  Proof.
    unfold cylinder_tang_u, cylinder_tang_u_gen. apply sl_id2. unfold cylinder_tang_polar_gen.
    apply (sl_pre (fun p : N * N * N => (vc_r p, snd p)) (fun rz => map2 (fun q f => f q) (map2 (fun a b => (a, b)) (ellipticPiCarlson (map (cyl_fin_nm R z1) rz)) (ellipticPiCarlson (map (cyl_fin_nm R z2) rz)))
      (map (fun p q => cyl_fin_pt g R z1 z2 p (fst q) (snd q)) rz))).
    apply sl_map2; [|apply sl_map]. apply sl_map2; [apply (sl_pre (cyl_fin_nm R z1)), Pi_set|apply (sl_pre (cyl_fin_nm R z2)), Pi_set].
  Qed.
  Lemma sl_fadd {A} (k1 k2 : list A -> list (N * N * N)) : setlike k1 -> setlike k2 -> setlike (fun l => fadd (k1 l) (k2 l)).
  Proof. apply sl_map2. Qed.
  Lemma fzero_set : setlike (fzero (N := N)).
  Proof. apply sl_map. Qed.
  Lemma sl_fold {A B} (step : A -> list B -> list (N * N * N) -> list (N * N * N)) :
    (forall a k, setlike k -> setlike (fun l => step a l (k l))) ->
    forall (xs : list A) k, setlike k -> setlike (fun l => fold_left (fun u a => step a l u) xs (k l)).
  Proof. intros H xs. induction xs as [|a xs IH]; intros k Hk; cbn [fold_left]; [exact Hk|]. apply (IH (fun l => step a l (k l))), H, Hk. Qed.
  Lemma sl_ylist (step : list (N * N * N) -> list (N * N * N) -> list (N * N * N)) ground c :
    (forall (h : N * N * N -> N * N * N) k, setlike k -> setlike (fun l => step (map h l) (k l))) ->
    forall k, setlike k -> setlike (fun l => fold_left (fun u Y => step Y u) (ylist ground c l) (k l)).
  Proof.
    intros H k Hk. unfold ylist. destruct ground; cbn [fold_left].
    - apply (sl_ext (fun l => step (map (fun p => mirror_pt (snd (fst c)) (shift c p)) l) (step (map (shift c) l) (k l)))).
      + intros l. rewrite map_map. reflexivity.
      + apply (H (fun p => mirror_pt (snd (fst c)) (shift c p)) (fun l => step (map (shift c) l) (k l))), H, Hk.
    - apply H, Hk.
  Qed.
  Lemma vcs_tang_set e ground cyls : setlike (vcs_tang_u (N := N) e ground cyls).
  Proof.
    unfold vcs_tang_u, vcs_tang_u_gen. refine (sl_fold (fun cyl pts u => fold_left (fun u Y => fold_left (fun u gr =>
       if nlt N (nZ N 0) (nabs N (fst gr)) then fadd u (vc_tang_u_gen ellipticPiCarlson (fst gr) (snd gr) e Y) else u) (snd cyl) u) (ylist ground (fst cyl) pts) u) _ _ _ fzero_set).
    intros cyl k Hk. refine (sl_ylist (fun Y u => fold_left (fun u gr =>
       if nlt N (nZ N 0) (nabs N (fst gr)) then fadd u (vc_tang_u_gen ellipticPiCarlson (fst gr) (snd gr) e Y) else u) (snd cyl) u) _ _ _ k Hk).
    intros h k' Hk'. refine (sl_fold (fun gr pts u => if nlt N (nZ N 0) (nabs N (fst gr)) then fadd u (vc_tang_u_gen ellipticPiCarlson (fst gr) (snd gr) e (map h pts)) else u) _ _ _ Hk').
    intros gr k2 Hk2. destruct (nlt N (nZ N 0) (nabs N (fst gr))); auto. apply sl_fadd; auto. apply (sl_pre h), vc_tang_set.
  Qed.
  Lemma vcs_longi_set ground cyls : setlike (vcs_longi_u (N := N) ground cyls).
  Proof.
    unfold vcs_longi_u, vcs_longi_u_gen. refine (sl_fold (fun cyl pts u => fold_left (fun u gr =>
       if nlt N (nZ N 0) (nabs N (fst gr)) then fadd u (vc_longi_u_gen ellipticPiCarlson (fst gr) (snd gr) false (map (shift (fst cyl)) pts)) else u) (snd cyl) u) _ _ _ fzero_set).
    intros cyl k Hk. refine (sl_fold (fun gr pts u => if nlt N (nZ N 0) (nabs N (fst gr)) then fadd u (vc_longi_u_gen ellipticPiCarlson (fst gr) (snd gr) false (map (shift (fst cyl)) pts)) else u) _ _ _ Hk).
    intros gr k2 Hk2. destruct (nlt N (nZ N 0) (nabs N (fst gr))); auto. apply sl_fadd; auto. apply (sl_pre (shift (fst cyl))), vc_longi_set.
  Qed.
  Lemma svcs_tang_set nt ground cyls : setlike (svcs_tang_u (N := N) nt ground cyls).
  Proof.
    unfold svcs_tang_u. refine (sl_fold (fun cyl pts u => fold_left (fun u Y => fold_left (fun u grm =>
          let '(g, R, m) := grm in if nlt N (nZ N 0) (nabs N g) then fadd u (map (svc_tang_u g R m nt false) Y) else u) (snd cyl) u) (ylist ground (fst cyl) pts) u) _ _ _ fzero_set).
    intros cyl k Hk. refine (sl_ylist (fun Y u => fold_left (fun u grm =>
          let '(g, R, m) := grm in if nlt N (nZ N 0) (nabs N g) then fadd u (map (svc_tang_u g R m nt false) Y) else u) (snd cyl) u) _ _ _ k Hk).
    intros h k' Hk'. refine (sl_fold (fun grm pts u => let '(g, R, m) := grm in if nlt N (nZ N 0) (nabs N g) then fadd u (map (svc_tang_u g R m nt false) (map h pts)) else u) _ _ _ Hk').
    intros [[g R] m] k2 Hk2. destruct (nlt N (nZ N 0) (nabs N g)); auto. apply sl_fadd; auto. apply (sl_pre h), sl_map.
  Qed.
  Lemma svcs_longi_set nt ground cyls : setlike (svcs_longi_u (N := N) nt ground cyls).
  Proof.
    unfold svcs_longi_u. refine (sl_fold (fun cyl pts u => fold_left (fun u (Y : list (N * N * N)) => fold_left (fun u grm =>
          let '(g, R, m) := grm in if nlt N (nZ N 0) (nabs N g) then fadd u (map (svc_longi_u g R m nt false) (map (shift (fst cyl)) pts)) else u) (snd cyl) u) (ylist ground (fst cyl) pts) u) _ _ _ fzero_set).
    intros cyl k Hk.
    assert (H : forall k', setlike k' -> setlike (fun pts => fold_left (fun u grm =>
          let '(g, R, m) := grm in if nlt N (nZ N 0) (nabs N g) then fadd u (map (svc_longi_u g R m nt false) (map (shift (fst cyl)) pts)) else u) (snd cyl) (k' pts))).
    { intros k' Hk'. refine (sl_fold (fun grm pts u => let '(g, R, m) := grm in if nlt N (nZ N 0) (nabs N g) then fadd u (map (svc_longi_u g R m nt false) (map (shift (fst cyl)) pts)) else u) _ _ _ Hk').
      intros [[g R] m] k2 Hk2. destruct (nlt N (nZ N 0) (nabs N g)); auto. apply sl_fadd; auto. apply (sl_pre (shift (fst cyl))), sl_map. }
    unfold ylist. destruct ground; cbn [fold_left]; [apply H in Hk; apply H in Hk; exact Hk|apply H in Hk; exact Hk].
  Qed.

  (** ** functions that can raise *)
  Lemma slR_ok {A B} (k : list A -> list B) : setlike k -> setlikeR (fun l => Ok (k l)).
  Proof. intros H l. right. destruct (H l) as [f Hf]. exists f. intros l' S. rewrite (Hf _ S). reflexivity. Qed.
  Lemma slR_err {A B} e : setlikeR (fun _ : list A => Err e : result (list B)).
  Proof. intros l. left. exists e. reflexivity. Qed.
  Lemma slR_pre {A B C} (h : A -> B) (k : list B -> result (list C)) : setlikeR k -> setlikeR (fun l => k (map h l)).
  Proof.
    intros H l. destruct (H (map h l)) as [[e He]|[f Hf]]; [left|right].
    - exists e. intros l' S. apply He, same_map, S.
    - exists (fun a => f (h a)). intros l' S. rewrite (Hf _ (same_map h _ _ S)), map_map. reflexivity.
  Qed.
  Lemma slR_bind {A B C} (k : list A -> result (list B)) (c : list A -> list B -> result (list C)) :
    setlikeR k -> (forall k', setlike k' -> setlikeR (fun l => c l (k' l))) -> setlikeR (fun l => let* u := k l in c l u).
  Proof.
    intros Hk Hc l. destruct (Hk l) as [[e He]|[f Hf]].
    - left. exists e. intros l' S. rewrite (He _ S). reflexivity.
    - destruct (Hc (map f) (sl_map f) l) as [[e He]|[g Hg]]; [left; exists e|right; exists g]; intros l' S; rewrite (Hf _ S); cbn; auto.
  Qed.
  Lemma slR_fold {A B} (step : A -> list B -> list (N * N * N) -> result (list (N * N * N))) :
    (forall a k, setlike k -> setlikeR (fun l => step a l (k l))) ->
    forall (xs : list A) k, setlikeR k -> setlikeR (fun l => fold_left (fun acc a => let* u := acc in step a l u) xs (k l)).
  Proof.
    intros H xs. induction xs as [|a xs IH]; intros k Hk; cbn [fold_left]; [exact Hk|]. apply (IH (fun l => let* u := k l in step a l u)).
    apply (slR_bind k (fun l u => step a l u)); auto.
  Qed.
  Lemma slR_ylist (step : list (N * N * N) -> list (N * N * N) -> result (list (N * N * N))) ground c (h0 : N * N * N -> N * N * N) :
    (forall (h : N * N * N -> N * N * N) k, setlike k -> setlikeR (fun l => step (map h l) (k l))) ->
    forall k, setlikeR k -> setlikeR (fun l => fold_left (fun acc Y => let* u := acc in step Y u) (ylist ground c (map h0 l)) (k l)).
  Proof.
    intros H k Hk. unfold ylist. cbv zeta.
    assert (E1 : setlikeR (fun l => let* u := k l in step (map (shift c) (map h0 l)) u)).
    { intros l. destruct (slR_bind k (fun l u => step (map (fun p => shift c (h0 p)) l) u) Hk (H _) l) as [[e He]|[f Hf]]; [left; exists e|right; exists f];
        intros l' S; rewrite map_map; [exact (He _ S)|exact (Hf _ S)]. }
    destruct ground; cbn [fold_left]; [|exact E1].
    intros l. destruct (slR_bind _ (fun l u => step (map (fun p => mirror_pt (snd (fst c)) (shift c (h0 p))) l) u) E1 (H _) l) as [[e He]|[f Hf]]; [left; exists e|right; exists f];
        intros l' S; [specialize (He _ S)|specialize (Hf _ S)]; rewrite !map_map in *; assumption.
  Qed.
  Lemma svc_root_set G m po : setlikeR (svc_root_u (N := N) G m po).
  Proof.
    unfold svc_root_u. apply (slR_pre to_polar). unfold svc_root_u_polar.
    destruct (neqb N G (nZ N 0)); [apply slR_ok, sl_map|]. destruct (neqb N m (nZ N 0)); [apply slR_ok, (sl_map (fun p => svr_out po p (svr_m0 G p)))|].
    intros l. destruct l as [|p0 l].
    - left. exists EValueError. intros l' S. destruct l' as [|p l']; auto. exfalso. apply (proj2 (S p)). left. reflexivity.
    - right. exists (if nlt N (nZ N 0) (amax (map (fun p => nabs N (snd p)) (p0 :: l))) then fun p => svr_out po p (svr_general G m p) else fun p => svr_out po p (svr_plane G m p)).
      intros l' S. rewrite (ML _ _ (nZ N 0) (same_map (fun p => nabs N (snd p)) _ _ S)).
      destruct l' as [|p1 l']; [exfalso; apply (proj1 (S p0)); left; reflexivity|].
      destruct (nlt N (nZ N 0) (amax (map (fun p => nabs N (snd p)) (p1 :: l')))); reflexivity.
  Qed.
  Lemma vcff_set g R cut : setlikeR (vc_tang_u_doublet (N := N) g R cut).
  Proof.
    unfold vc_tang_u_doublet, vc_tang_u_doublet_gen. refine (slR_bind _ (fun l u => Ok (map2 cart_of_polar2 l u)) _ _).
    2:{ intros k' Hk'. apply slR_ok, sl_id2, Hk'. }
    unfold vc_tang_doublet_polar_gen. cbv zeta. intros l.
    destruct (vc_polar_set g R (nZ N 0) (filter (fun p => negb (vc_ff_cut cut R p)) l)) as [f Hf].
    assert (EX : forall l', same_points l l' -> any_neg (gather (map (vc_ff_cut cut R) l') (map (fun p => (vc_r p, snd p)) l')) =
      any_neg (gather (map (vc_ff_cut cut R) l) (map (fun p => (vc_r p, snd p)) l))).
    { intros l' S. rewrite !gather_map, !gather_map_filter. unfold any_neg. symmetry. apply same_existsb, same_map, same_filter, S. }
    destruct (any_neg (gather (map (vc_ff_cut cut R) l) (map (fun p => (vc_r p, snd p)) l))) eqn:E.
    - left. exists (EException "Script meant for positive r"%string). intros l' S. unfold doublet_line_polar_u. rewrite (EX _ S). reflexivity.
    - right. eexists. intros l' S. unfold doublet_line_polar_u. rewrite (EX _ S). cbn [Num.bind]. f_equal.
      rewrite map_map, gather_map, !gather_map_filter, map_map.
      change (vc_tang_polar_gen ellipticPiCarlson g R (nZ N 0)) with (vc_tang_polar g R (nZ N 0)). rewrite (Hf _ (same_filter _ _ _ S)).
      rewrite scatter_map, scatter_map. reflexivity.
  Qed.

  (** ** WindTurbine.compute_u *)
  Lemma cu_tang1_set t o M chi g : setlikeR (cu_tang1 (N := N) t o M chi g).
  Proof.
    unfold cu_tang1. destruct (skewed chi).
    - destruct (String.eqb M "VC"%string); [apply slR_ok, sl_map|apply slR_err].
    - destruct (String.eqb M "VC"%string); [apply slR_ok, vc_tang_set|]. destruct (String.eqb M "VCFF"%string); [apply vcff_set|].
      destruct (String.eqb M "VD"%string); [apply slR_ok, sl_map|]. destruct (String.eqb M "SS"%string); [apply slR_ok, sl_map|apply slR_err].
  Qed.
  Lemma cu_longi1_set t M chi g : setlikeR (cu_longi1 (N := N) t M chi g).
  Proof.
    unfold cu_longi1. destruct (skewed chi); destruct (String.eqb M "VC"%string); first [apply slR_ok, sl_map|apply slR_err|apply slR_ok, vc_longi_set].
  Qed.
  Lemma compute_u_set t o : setlikeR (fun pts => snd (compute_u (N := N) t o pts)).
  Proof.
    unfold compute_u. cbn [snd]. destruct (t_gt t) as [gs|]; [|apply slR_err]. cbv zeta.
    set (Model := match o_Model o with Some m => m | None => t_model t end).
    set (ground := match o_ground o with Some g => g | None => t_ground t end).
    set (chi := chi_now t). set (M := T_c2g t). set (cyl := transform_T M (t_rhub t)).
    assert (R1 : setlikeR (fun pts => cu_root t o chi (ylist ground cyl (map (transform_T M) pts)) (fzero pts))).
    { unfold cu_root. destruct (o_root o); [|apply slR_ok, fzero_set]. destruct (t_Gr t) as [Gr|]; [|apply slR_ok, fzero_set].
      destruct (neqb N Gr (nZ N 0)); [apply slR_ok, fzero_set|].
      refine (slR_ylist (fun Y u => let* v := if skewed chi then svc_root_u Gr (ntan N chi) false Y else Ok (vc_root_u Gr false Y) in Ok (fadd u v)) ground cyl (transform_T M) _ _ (slR_ok _ fzero_set)).
      intros h k Hk. refine (slR_bind _ (fun l v => Ok (fadd (k l) v)) _ _).
      - destruct (skewed chi); [apply (slR_pre h), svc_root_set|apply (slR_pre h (fun Y => Ok (vc_root_u Gr false Y))), slR_ok, sl_map].
      - intros k' Hk'. apply slR_ok, sl_fadd; auto. }
    refine (slR_bind _ (fun pts u => let* u := match gs with [g] => cu_single t o Model chi g (ylist ground cyl (map (transform_T M) pts)) u
       | _ => cu_multi t o Model chi gs ground cyl (map (transform_T M) pts) u end in
       Ok (if o_only_ind o then map (transform M) (if o_no_wake o then map2 (fun p v => if in_wake_tube (t_R t) p then (nZ N 0, nZ N 0, nZ N 0) else v) (map (shift cyl) (map (transform_T M) pts)) u else u)
           else map (fun v => vadd v (t_U0 t)) (map (transform M) (if o_no_wake o then map2 (fun p v => if in_wake_tube (t_R t) p then (nZ N 0, nZ N 0, nZ N 0) else v) (map (shift cyl) (map (transform_T M) pts)) u else u)))) R1 _).
    intros k Hk. refine (slR_bind _ (fun pts u => Ok (if o_only_ind o then map (transform M) (if o_no_wake o then map2 (fun p v => if in_wake_tube (t_R t) p then (nZ N 0, nZ N 0, nZ N 0) else v) (map (shift cyl) (map (transform_T M) pts)) u else u)
           else map (fun v => vadd v (t_U0 t)) (map (transform M) (if o_no_wake o then map2 (fun p v => if in_wake_tube (t_R t) p then (nZ N 0, nZ N 0, nZ N 0) else v) (map (shift cyl) (map (transform_T M) pts)) u else u)))) _ _).
    2:{ intros k' Hk'. apply slR_ok.
        assert (W : setlike (fun pts => if o_no_wake o then map2 (fun p v => if in_wake_tube (t_R t) p then (nZ N 0, nZ N 0, nZ N 0) else v) (map (shift cyl) (map (transform_T M) pts)) (k' pts) else k' pts)).
        { destruct (o_no_wake o); [|exact Hk']. apply (sl_map2 (fun p v => if in_wake_tube (t_R t) p then (nZ N 0, nZ N 0, nZ N 0) else v) (fun pts => map (shift cyl) (map (transform_T M) pts)) k'); [|exact Hk'].
          apply (sl_pre (transform_T M)), sl_map. }
        destruct (o_only_ind o); [apply (sl_post (transform M)), W|]. apply (sl_post (fun v => vadd v (t_U0 t))), (sl_post (transform M)), W. }
    assert (MU : setlikeR (fun pts => cu_multi t o Model chi gs ground cyl (map (transform_T M) pts) (k pts))).
    { unfold cu_multi. destruct (String.eqb Model "VC"%string); [|apply slR_err]. destruct (t_r t) as [r|]; [|apply slR_err]. destruct (t_gl t) as [gl|]; [|apply slR_err].
      destruct (negb (Nat.eqb (len gs) (len r))); [apply slR_err|].
      destruct (match gl with Some gl => negb (Nat.eqb (len gl) (len r)) | None => false end); [apply slR_err|]. apply slR_ok. cbv zeta.
      assert (K1 : setlike (fun pts => if o_tang o then fadd (k pts) (if skewed chi then svcs_tang_u 180 ground [(cyl, map2 (fun g r => (g, r, ntan N chi)) gs r)] (map (transform_T M) pts)
          else vcs_tang_u (nZ N 0) ground [(cyl, map2 pair gs r)] (map (transform_T M) pts)) else k pts)).
      { destruct (o_tang o); auto. apply sl_fadd; auto. destruct (skewed chi); apply (sl_pre (transform_T M)); [apply svcs_tang_set|apply vcs_tang_set]. }
      destruct (o_longi o); [|exact K1]. destruct gl as [gl|]; [|exact K1]. apply sl_fadd; [exact K1|].
      destruct (skewed chi); apply (sl_pre (transform_T M)); [apply svcs_longi_set|apply vcs_longi_set]. }
    destruct gs as [|g [|g' gs]]; [exact MU| |exact MU].
    unfold cu_single.
    refine (slR_ylist (fun Y u => let* u0 := if o_tang o && negb (neqb N g (nZ N 0)) then let* v := cu_tang1 t o Model chi g Y in Ok (fadd u v) else Ok u in
      let* gl := gl_active1 t (o_longi o) in match gl with Some gl => let* v := cu_longi1 t Model chi gl Y in Ok (fadd u0 v) | None => Ok u0 end) ground cyl (transform_T M) _ _ (slR_ok _ Hk)).
    intros h k0 Hk0.
    refine (slR_bind _ (fun l u0 => let* gl := gl_active1 t (o_longi o) in match gl with Some gl => let* v := cu_longi1 t Model chi gl (map h l) in Ok (fadd u0 v) | None => Ok u0 end) _ _).
    - destruct (o_tang o && negb (neqb N g (nZ N 0))); [|apply slR_ok, Hk0].
      refine (slR_bind _ (fun l v => Ok (fadd (k0 l) v)) (slR_pre h _ (cu_tang1_set t o Model chi g)) _). intros k' Hk'. apply slR_ok, sl_fadd; auto.
    - intros k1 Hk1. destruct (gl_active1 t (o_longi o)) as [[gl|]|e]; cbn [Num.bind]; [|apply slR_ok, Hk1|apply slR_err].
      refine (slR_bind _ (fun l v => Ok (fadd (k1 l) v)) (slR_pre h _ (cu_longi1_set t Model chi gl)) _). intros k' Hk'. apply slR_ok, sl_fadd; auto.
  Qed.
  (** ** WindFarm.velocity_field *)
  Lemma farm_set o f : forall h k, setlike k -> forall l, exists h',
    (exists e, forall l', same_points l l' -> farm_loop (N := N) h f o l' (k l') = (h', Err e)) \/
    (exists g, forall l', same_points l l' -> farm_loop (N := N) h f o l' (k l') = (h', Ok (map g l'))).
  Proof.
    induction f as [|i f IH]; intros h k Hk l; cbn [farm_loop].
    - exists h. right. destruct (Hk l) as [g Hg]. exists g. intros l' S. rewrite (Hg _ S). reflexivity.
    - destruct (nth_error h i) as [[t|]|]; [|exists h; left; exists EAttributeError; reflexivity..].
      set (t' := set_chif t (Some (chi_now t))).
      assert (E1 : forall l', compute_u t (farm_opts o) l' = (t', snd (compute_u t (farm_opts o) l'))) by (intros; reflexivity).
      destruct (compute_u_set t (farm_opts o) l) as [[e He]|[g Hg]].
      + exists (upd h i (OWT t')). left. exists e. intros l' S. rewrite E1, (He _ S). reflexivity.
      + destruct (IH (upd h i (OWT t')) (fun l => fadd (k l) (map g l)) (sl_fadd _ _ Hk (sl_map g)) l) as (h' & [[e He]|[g' Hg']]); exists h'; [left; exists e|right; exists g'];
          intros l' S; rewrite E1, (Hg _ S); auto.
  Qed.
  Lemma field_set h f o U0 : forall l, exists h',
    (exists e, forall l', same_points l l' -> velocity_field (N := N) h f o U0 l' = (h', Err e)) \/
    (exists g, forall l', same_points l l' -> velocity_field (N := N) h f o U0 l' = (h', Ok (map g l'))).
  Proof.
    intros l. unfold velocity_field. destruct (farm_set o f h fzero fzero_set l) as (h' & [[e He]|[g Hg]]); exists h'.
    - left. exists e. intros l' S. rewrite (He _ S). reflexivity.
    - right. destruct U0 as [U|].
      + exists (fun p => vadd (g p) U). intros l' S. rewrite (Hg _ S). cbn [Num.bind]. rewrite map_map. reflexivity.
      + exists g. intros l' S. rewrite (Hg _ S). reflexivity.
  Qed.
  Lemma agree_map {A B} (f : A -> B) l l' : agree l (map f l) l' (map f l').
  Proof.
    split; [apply map_length|]. split; [apply map_length|]. intros i j p Hi Hj. rewrite (map_nth_error f _ _ Hi), (map_nth_error f _ _ Hj). reflexivity.
  Qed.
  Lemma setlike_agree {A B} (k : list A -> list B) l l' : setlike k -> same_points l l' -> agree l (k l) l' (k l').
  Proof. intros H S. destruct (H l) as [f Hf]. rewrite (Hf _ (same_refl l)), (Hf _ S). apply agree_map. Qed.
  Lemma setlikeR_agree {A B} (k : list A -> result (list B)) l l' : setlikeR k -> same_points l l' -> same_answers l (k l) l' (k l').
  Proof.
    intros H S. destruct (H l) as [[e He]|[f Hf]].
    - rewrite (He _ (same_refl l)), (He _ S). reflexivity.
    - rewrite (Hf _ (same_refl l)), (Hf _ S). apply agree_map.
  Qed.
  Lemma C145_any t o h f U0 (l l' : list (N * N * N)) : same_points l l' ->
    fst (compute_u t o l) = fst (compute_u t o l') /\ same_answers l (snd (compute_u t o l)) l' (snd (compute_u t o l')) /\
    fst (velocity_field h f o U0 l) = fst (velocity_field h f o U0 l') /\
    same_answers l (snd (velocity_field h f o U0 l)) l' (snd (velocity_field h f o U0 l')).
  Proof.
    intros S. split; [reflexivity|]. split; [apply (setlikeR_agree (fun l => snd (compute_u t o l)) l l' (compute_u_set t o) S)|].
    destruct (field_set h f o U0 l) as (h' & [[e He]|[g Hg]]).
    - rewrite (He _ (same_refl l)), (He _ S). cbn. auto.
    - rewrite (Hg _ (same_refl l)), (Hg _ S). split; [reflexivity|]. apply agree_map.
  Qed.
End Kernels.

(** ** C145 *)
(** in exact arithmetic with infinities and NaN *)
Theorem C145_same_points : forall (t : turbine XN) (o : opts XN) (h : heap XN) (f : farm) U0 (l l' : list (XN * XN * XN)), same_points l l' ->
  fst (compute_u t o l) = fst (compute_u t o l') /\ same_answers l (snd (compute_u t o l)) l' (snd (compute_u t o l')) /\
  fst (velocity_field h f o U0 l) = fst (velocity_field h f o U0 l') /\
  same_answers l (snd (velocity_field h f o U0 l)) l' (snd (velocity_field h f o U0 l')).
Proof. intros. apply (C145_any (N := XN)); [exact XN_max|assumption]. Qed.
(** in binary64, to the last bit, whatever the mathematical library *)
Theorem C145_same_points_binary64 : forall (L : mlib) (t : turbine (FN L)) (o : opts (FN L)) (h : heap (FN L)) (f : farm) U0 (l l' : list (FN L * FN L * FN L)), same_points l l' ->
  fst (compute_u t o l) = fst (compute_u t o l') /\ same_answers l (snd (compute_u t o l)) l' (snd (compute_u t o l')) /\
  fst (velocity_field h f o U0 l) = fst (velocity_field h f o U0 l') /\
  same_answers l (snd (velocity_field h f o U0 l)) l' (snd (velocity_field h f o U0 l')).
Proof. intros L. intros. apply (C145_any (N := FN L)); [exact (FN_max L)|assumption]. Qed.
(** the functions of VortexCylinder.py that a user calls directly *)
Theorem C145_kernels_binary64 : forall (L : mlib) (l l' : list (FN L * FN L * FN L)), same_points l l' ->
  (forall g rad e, agree l (vc_tang_u (N := FN L) g rad e l) l' (vc_tang_u (N := FN L) g rad e l')) /\
  (forall g rad po, agree l (vc_longi_u (N := FN L) g rad po l) l' (vc_longi_u (N := FN L) g rad po l')) /\
  (forall g rad z1 z2, agree l (cylinder_tang_u (N := FN L) g rad z1 z2 l) l' (cylinder_tang_u (N := FN L) g rad z1 z2 l')) /\
  (forall e gr cyls, agree l (vcs_tang_u (N := FN L) e gr cyls l) l' (vcs_tang_u (N := FN L) e gr cyls l')) /\
  (forall g rad c, same_answers l (vc_tang_u_doublet (N := FN L) g rad c l) l' (vc_tang_u_doublet (N := FN L) g rad c l')).
Proof.
  intros L l l' S. pose proof (FN_max L) as ML. split; [|split; [|split; [|split]]]; intros.
  - apply (setlike_agree (vc_tang_u (N := FN L) g rad e)); [apply vc_tang_set, ML|exact S].
  - apply (setlike_agree (vc_longi_u (N := FN L) g rad po)); [apply vc_longi_set, ML|exact S].
  - apply (setlike_agree (cylinder_tang_u (N := FN L) g rad z1 z2)); [apply cyl_fin_set, ML|exact S].
  - apply (setlike_agree (vcs_tang_u (N := FN L) e gr cyls)); [apply vcs_tang_set, ML|exact S].
  - apply (setlikeR_agree (vc_tang_u_doublet (N := FN L) g rad c)); [apply vcff_set, ML|exact S].
Qed.
(** in particular: points in reverse order, and points asked twice *)
Theorem C145_reversed : forall (L : mlib) (t : turbine (FN L)) o (l us : list (FN L * FN L * FN L)), snd (compute_u t o l) = Ok us ->
  snd (compute_u t o (rev l)) = Ok (rev us) /\ snd (compute_u t o (l ++ l)) = Ok (us ++ us).
Proof.
  intros L t o l us E. destruct (compute_u_set (FN_max L) t o l) as [[e He]|[f Hf]].
  - rewrite (He _ (same_refl l)) in E. discriminate E.
  - rewrite (Hf _ (same_refl l)) in E. injection E as <-. rewrite (Hf (rev l)), (Hf (l ++ l)), map_rev, map_app; [auto|..].
    + intros p. rewrite in_app_iff. tauto.
    + intros p. apply in_rev.
Qed.
(** a grid of points and its transpose hold the same points *)
Lemma same_transposed {A} (p : nat -> nat -> A) (n m : nat) :
  same_points (flat_map (fun i => map (fun j => p i j) (seq 0 m)) (seq 0 n)) (flat_map (fun j => map (fun i => p i j) (seq 0 n)) (seq 0 m)).
Proof.
  intros q. rewrite !in_flat_map. split.
  - intros (i & Hi & Hq). apply in_map_iff in Hq. destruct Hq as (j & <- & Hj). exists j. split; auto. apply in_map_iff. exists i. auto.
  - intros (j & Hj & Hq). apply in_map_iff in Hq. destruct Hq as (i & <- & Hi). exists i. split; auto. apply in_map_iff. exists j. auto.
Qed.
(** the hypothesis is met by a grid given column by column instead of row by row *)
Example C145_applies L (t : turbine (FN L)) o (x y : nat -> FN L) z n m :
  let rows := flat_map (fun i => map (fun j => (x i, y j, z)) (seq 0 m)) (seq 0 n) in
  let columns := flat_map (fun j => map (fun i => (x i, y j, z)) (seq 0 n)) (seq 0 m) in
  same_answers rows (snd (compute_u t o rows)) columns (snd (compute_u t o columns)).
Proof. intros rows columns. apply (C145_same_points_binary64 L t o [] [] None). apply (same_transposed (fun i j => (x i, y j, z))). Qed.
