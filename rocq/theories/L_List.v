(** * Generic lemmas about the list operations of the model (any [Num]). *)
From Coq Require Import ZArith List Bool Arith Lia.
From Verif Require Import Num M_Elliptic M_Line M_Doublet M_Cylinder M_Skewed.
Import ListNotations.
Local Open Scope num_scope.
Local Notation len := List.length.

Lemma map2_length {A B C} (f : A -> B -> C) l m :
  len (map2 f l m) = Nat.min (len l) (len m).
Proof. revert m; induction l as [|a l IH]; intros [|b m]; simpl; auto. Qed.

Lemma map2_nth_error {A B C} (f : A -> B -> C) l m k :
  nth_error (map2 f l m) k =
  match nth_error l k, nth_error m k with Some a, Some b => Some (f a b) | _, _ => None end.
Proof.
  revert m k; induction l as [|a l IH]; intros [|b m] [|k]; simpl; auto.
  destruct (nth_error l k); reflexivity.
Qed.

Lemma map2_map_l {A A' B C} (f : A -> B -> C) (g : A' -> A) l m :
  map2 f (map g l) m = map2 (fun a b => f (g a) b) l m.
Proof. revert m; induction l as [|a l IH]; intros [|b m]; simpl; auto. now rewrite IH. Qed.
Lemma map2_map_r {A B B' C} (f : A -> B -> C) (g : B' -> B) l m :
  map2 f l (map g m) = map2 (fun a b => f a (g b)) l m.
Proof. revert m; induction l as [|a l IH]; intros [|b m]; simpl; auto. now rewrite IH. Qed.
Lemma map2_diag {A B} (f : A -> A -> B) l : map2 f l l = map (fun a => f a a) l.
Proof. induction l as [|a l IH]; simpl; auto. now rewrite IH. Qed.
Lemma map_map2 {A B C D} (f : A -> B -> C) (g : C -> D) l m :
  map g (map2 f l m) = map2 (fun a b => g (f a b)) l m.
Proof. revert m; induction l as [|a l IH]; intros [|b m]; simpl; auto. now rewrite IH. Qed.
Lemma map2_ext {A B C} (f g : A -> B -> C) l m :
  (forall a b, f a b = g a b) -> map2 f l m = map2 g l m.
Proof. intros H; revert m; induction l as [|a l IH]; intros [|b m]; simpl; auto. now rewrite H, IH. Qed.

Lemma nth_error_ext {A} (l m : list A) : (forall k, nth_error l k = nth_error m k) -> l = m.
Proof.
  revert m; induction l as [|a l IH]; intros [|b m] H.
  - reflexivity.
  - specialize (H 0%nat); discriminate.
  - specialize (H 0%nat); discriminate.
  - f_equal; [specialize (H 0%nat); simpl in H; congruence|].
    apply IH; intros k; exact (H (S k)).
Qed.

Lemma scatter_length {A} mask (vals dflt : list A) :
  len mask = len dflt -> len vals = len (filter (fun b => b) mask) ->
  len (scatter mask vals dflt) = len dflt.
Proof.
  revert vals dflt; induction mask as [|b mask IH]; intros vals [|d dflt] H1 H2; simpl in *;
    try discriminate; auto.
  destruct b; simpl in *.
  - destruct vals as [|v vals]; [discriminate|]. simpl. rewrite IH; auto.
  - simpl. rewrite IH; auto.
Qed.
Lemma gather_length {A} mask (l : list A) :
  len mask = len l -> len (gather mask l) = len (filter (fun b => b) mask).
Proof.
  revert l; induction mask as [|b mask IH]; intros [|a l] H; simpl in *; try discriminate; auto.
  destruct b; simpl; rewrite IH; auto.
Qed.

(** Selecting with a mask, processing pointwise, and writing back is a pointwise
    conditional. *)
Lemma scatter_gather_map {A B} (t : A -> bool) (f g : A -> B) l :
  scatter (map t l) (map f (gather (map t l) l)) (map g l)
  = map (fun a => if t a then f a else g a) l.
Proof.
  induction l as [|a l IH]; simpl; auto.
  destruct (t a) eqn:E; simpl; rewrite IH; reflexivity.
Qed.
Lemma gather_map {A B} (mask : list bool) (f : A -> B) l :
  gather mask (map f l) = map f (gather mask l).
Proof. revert l; induction mask as [|[|] mask IH]; intros [|a l]; simpl; auto. now rewrite IH. Qed.
Lemma gather_map_filter {A} (t : A -> bool) l : gather (map t l) l = filter t l.
Proof. induction l as [|a l IH]; simpl; auto. destruct (t a); rewrite IH; auto. Qed.
(** Same with an arbitrary (batch dependent) list of values. *)
Lemma scatter_false {A} (t : A -> bool) (B : Type) (vals : list B) (g : A -> B) l :
  (forall a, In a l -> t a = false) -> scatter (map t l) vals (map g l) = map g l.
Proof.
  induction l as [|a l IH]; intros H; simpl; auto.
  rewrite (H a) by (left; reflexivity). rewrite IH; auto. intros b Hb; apply H; right; auto.
Qed.


Section Lengths.
  Context {N : Num}.

  Lemma rf_loop_length tol fuel res (st : list (N*N*N)) RFo :
    len RFo = len st -> len (rf_loop tol fuel res st RFo) = len st.
  Proof.
    revert res st RFo; induction fuel as [|fuel IH]; intros res st RFo H; simpl; auto.
    destruct (nlt N tol res); auto.
    rewrite IH; rewrite ?map_length; auto.
  Qed.
  Lemma RF_tol_length tol itmax (y : list N) : len (RF_tol tol itmax y) = len y.
  Proof. unfold RF_tol. rewrite rf_loop_length; rewrite ?map_length; auto. Qed.
  Lemma rc_loop_length tol fuel res (st : list (N*N)) RCo :
    len RCo = len st -> len (rc_loop tol fuel res st RCo) = len st.
  Proof.
    revert res st RCo; induction fuel as [|fuel IH]; intros res st RFo H; simpl; auto.
    destruct (nlt N tol res); auto.
    rewrite IH; rewrite ?map_length; auto.
  Qed.
  Lemma RC_tol_length tol itmax (xy : list (N*N)) : len (RC_tol tol itmax xy) = len xy.
  Proof. unfold RC_tol. rewrite rc_loop_length; rewrite ?map_length; auto. Qed.
  Lemma rj_loop_length tol itmax fuel n res (st : list (N*N*N*N)) r1 RJo :
    len r1 = len st -> len RJo = len st -> len (rj_loop tol itmax fuel n res st r1 RJo) = len st.
  Proof.
    revert n res st r1 RJo; induction fuel as [|fuel IH]; intros n res st r1 RJo H1 H; simpl; auto.
    destruct (nlt N tol res); auto.
    assert (E1 : len (rj_rhs1 tol itmax n st r1) = len st).
    { unfold rj_rhs1. rewrite map2_length, RC_tol_length, map_length. lia. }
    rewrite IH; rewrite ?map2_length, ?map_length; lia.
  Qed.
  Lemma RJ_tol_length tol itmax (yr : list (N*N)) : len (RJ_tol tol itmax yr) = len yr.
  Proof.
    unfold RJ_tol. rewrite scatter_length; rewrite ?map_length; auto.
    rewrite rj_loop_length; rewrite ?map_length; auto.
    rewrite gather_length; rewrite ?map_length; auto.
  Qed.
  Lemma Pi_tol_length tol itmax (nm : list (N*N)) : len (Pi_tol tol itmax nm) = len nm.
  Proof.
    destruct nm as [|p nm]; auto.
    cbn [Pi_tol].
    rewrite !map2_length, RF_tol_length, RJ_tol_length, !map_length.
    lia.
  Qed.
  Lemma ellipticRF_length (y : list N) : len (ellipticRF y) = len y.
  Proof. apply RF_tol_length. Qed.
  Lemma ellipticRC_length (xy : list (N*N)) : len (ellipticRC xy) = len xy.
  Proof. apply RC_tol_length. Qed.
  Lemma ellipticRJ_length (yr : list (N*N)) : len (ellipticRJ yr) = len yr.
  Proof. apply RJ_tol_length. Qed.
  Lemma ellipticPiCarlson_length (nm : list (N*N)) : len (ellipticPiCarlson nm) = len nm.
  Proof. apply Pi_tol_length. Qed.

  Lemma fzero_length (pts : list (N*N*N)) : len (fzero pts) = len pts.
  Proof. apply map_length. Qed.
  Lemma fadd_length (a b : list (N*N*N)) : len a = len b -> len (fadd a b) = len a.
  Proof. intros; unfold fadd; rewrite map2_length; lia. Qed.
  Lemma vc_tang_polar_length g R e (pts : list (N*N*N)) : len (vc_tang_polar g R e pts) = len pts.
  Proof.
    unfold vc_tang_polar, vc_tang_polar_gen. rewrite scatter_length; rewrite ?map_length; auto.
    rewrite map2_length, ellipticPiCarlson_length, map_length, Nat.min_id.
    apply gather_length; rewrite !map_length; auto.
  Qed.
  Lemma vc_tang_u_length g R e (pts : list (N*N*N)) : len (vc_tang_u g R e pts) = len pts.
  Proof.
    unfold vc_tang_u, vc_tang_u_gen.
    change (vc_tang_polar_gen ellipticPiCarlson) with (@vc_tang_polar N).
    rewrite map2_length, vc_tang_polar_length. lia.
  Qed.
  Lemma vc_longi_u_length g R b (pts : list (N*N*N)) : len (vc_longi_u g R b pts) = len pts.
  Proof.
    unfold vc_longi_u, vc_longi_u_gen, vc_longi_u_polar_gen.
    rewrite !map2_length, ellipticPiCarlson_length, !map_length. lia.
  Qed.
  Lemma shift_ylist_length ground c (pts : list (N*N*N)) Y :
    In Y (ylist ground c pts) -> len Y = len pts.
  Proof.
    unfold ylist; destruct ground; simpl; intros [<-|H]; rewrite ?map_length; auto.
    - destruct H as [<-|[]]. rewrite !map_length; auto.
    - destruct H.
  Qed.
  Lemma vc_root_u_length G b (pts : list (N*N*N)) : len (vc_root_u G b pts) = len pts.
  Proof. apply map_length. Qed.
  Lemma svc_root_u_length G m b (pts v : list (N*N*N)) :
    svc_root_u G m b pts = Ok v -> len v = len pts.
  Proof.
    unfold svc_root_u, svc_root_u_polar.
    destruct (neqb N G _). { intros H; injection H; intros <-; rewrite !map_length; auto. }
    destruct (neqb N m _). { intros H; injection H; intros <-; rewrite !map_length; auto. }
    destruct (map to_polar pts) eqn:E; [discriminate|]. rewrite <- E.
    assert (L : len (map to_polar pts) = len pts) by apply map_length.
    destruct (nlt N _ _); intros H; injection H; intros <-; rewrite map_length; auto.
  Qed.
  Lemma doublet_line_polar_u_length ps d b (v : list (N*N)) :
    doublet_line_polar_u ps d b = Ok v -> len v = len ps.
  Proof.
    unfold doublet_line_polar_u; destruct (any_neg ps); [discriminate|].
    intros H; injection H; intros <-; apply map_length.
  Qed.
  Lemma filter_negb_map {A} (t : A -> bool) l :
    len (filter (fun b => b) (map negb (map t l))) = len (filter (fun a => negb (t a)) l).
  Proof. induction l as [|a l IH]; simpl; auto. destruct (t a); simpl; auto. Qed.
  Lemma vc_tang_u_doublet_length g R c (pts v : list (N*N*N)) :
    vc_tang_u_doublet g R c pts = Ok v -> len v = len pts.
  Proof.
    unfold vc_tang_u_doublet, vc_tang_u_doublet_gen, vc_tang_doublet_polar_gen.
    destruct (doublet_line_polar_u _ _ _) as [far|e] eqn:E; [|discriminate].
    cbn [bind]. intros H; injection H; intros <-.
    apply doublet_line_polar_u_length in E.
    set (bC := map (vc_ff_cut c R) pts) in *.
    assert (Hn : len (scatter (map negb bC)
                        (vc_tang_polar g R (nZ N 0) (gather (map negb bC) pts))
                        (map (fun _ => (nnan N, nnan N)) pts)) = len pts).
    { rewrite scatter_length; unfold bC; rewrite ?map_length; auto.
      rewrite vc_tang_polar_length. apply gather_length; rewrite !map_length; auto. }
    rewrite map2_length. unfold vc_tang_polar in Hn. rewrite scatter_length.
    - rewrite Hn; lia.
    - rewrite Hn; unfold bC; apply map_length.
    - rewrite E. apply gather_length; unfold bC; rewrite !map_length; auto.
  Qed.
End Lengths.
