(** * Lemmas about WindFarm (any [Num] unless said otherwise). *)
From Coq Require Import ZArith List Bool Arith Lia String Permutation Reals Lra.
From Verif Require Import Num NumR NumX M_Cylinder M_Turbine M_Farm L_List L_Turbine.
Import ListNotations.
Local Open Scope num_scope.
Local Notation len := List.length.

Lemma upd_length {A} (l : list A) i a : len (upd l i a) = len l.
Proof. revert i; induction l as [|b l IH]; intros [|i]; simpl; auto. Qed.
Lemma upd_same {A} (l : list A) i a : (i < len l)%nat -> nth_error (upd l i a) i = Some a.
Proof. revert i; induction l as [|b l IH]; intros [|i] H; simpl in *; try lia; auto. apply IH; lia. Qed.
Lemma upd_other {A} (l : list A) i j a : i <> j -> nth_error (upd l i a) j = nth_error l j.
Proof. revert i j; induction l as [|b l IH]; intros [|i] [|j] H; simpl in *; try lia; auto. Qed.
Lemma nth_error_some_lt {A} (l : list A) i a : nth_error l i = Some a -> (i < len l)%nat.
Proof. intros H; apply nth_error_Some; congruence. Qed.

Section F.
  Context {N : Num}.
  Notation pt := (N * N * N)%type.

  (** What one entry of the farm answers, in the initial heap. *)
  Definition answer (h : heap N) (o : opts N) (pts : list pt) (i : nat) : result (list pt) :=
    match nth_error h i with
    | Some (OWT t) => snd (compute_u t (farm_opts o) pts)
    | _ => Err EAttributeError
    end.

  (** Two heaps that answer alike: same objects up to an already cached skew angle. *)
  Definition hsim (h h' : heap N) : Prop :=
    forall i, match nth_error h i, nth_error h' i with
              | Some (OWT t), Some (OWT t') => t' = t \/ t' = set_chif t (Some (chi_now t))
              | Some OOther, Some OOther => True
              | None, None => True
              | _, _ => False
              end.
  Lemma hsim_refl h : hsim h h.
  Proof. intros i; destruct (nth_error h i) as [[t|]|]; auto. Qed.
  Lemma hsim_upd h h' i t :
    hsim h h' -> nth_error h' i = Some (OWT t) ->
    hsim h (upd h' i (OWT (set_chif t (Some (chi_now t))))).
  Proof.
    intros H Hi j. destruct (Nat.eq_dec i j) as [<-|Hij].
    - rewrite upd_same by (eapply nth_error_some_lt; eauto).
      specialize (H i). rewrite Hi in H. destruct (nth_error h i) as [[t0|]|]; try contradiction.
      right. destruct H as [-> | ->]; reflexivity.
    - rewrite upd_other by auto. apply H.
  Qed.

  Lemma farm_loop_spec f : forall h h' o pts u,
    hsim h h' ->
    snd (farm_loop h' f o pts u) =
    (let* us := mapM (answer h o pts) f in Ok (fsum u us)) /\
    hsim h (fst (farm_loop h' f o pts u)).
  Proof.
    induction f as [|i f IH]; intros h h' o pts u H; [simpl; auto|].
    cbn [farm_loop mapM]. pose proof (H i) as Hi. unfold answer at 1.
    destruct (nth_error h i) as [[t|]|] eqn:E1, (nth_error h' i) as [[t'|]|] eqn:E2;
      try contradiction; try (simpl; auto; fail).
    destruct (compute_u t' (farm_opts o) pts) as [t2 r] eqn:E3.
    assert (Ht2 : t2 = set_chif t' (Some (chi_now t'))).
    { change t2 with (fst (t2, r)). rewrite <- E3. reflexivity. }
    assert (Hr : r = snd (compute_u t (farm_opts o) pts)).
    { change r with (snd (t2, r)). rewrite <- E3. destruct Hi as [-> | ->]; auto. }
    rewrite <- Hr. subst t2.
    assert (HS : hsim h (upd h' i (OWT (set_chif t' (Some (chi_now t')))))).
    { apply hsim_upd; auto. }
    destruct r as [v|e]; [|simpl; auto].
    specialize (IH h _ o pts (fadd u v) HS). destruct IH as [IH1 IH2].
    split; auto. rewrite IH1. cbn [bind].
    destruct (mapM (answer h o pts) f); reflexivity.
  Qed.

  Definition add_free (U0 : option pt) (u : list pt) : list pt :=
    match U0 with None => u | Some U => map (fun v => vadd v U) u end.
  Lemma velocity_field_spec h f o U0 pts :
    snd (velocity_field h f o U0 pts) =
    (let* us := mapM (answer h o pts) f in Ok (add_free U0 (fsum (fzero pts) us))).
  Proof.
    unfold velocity_field.
    destruct (farm_loop h f o pts (fzero pts)) as [h' r] eqn:E.
    assert (Hr : r = snd (farm_loop h f o pts (fzero pts))) by (rewrite E; auto).
    cbn [snd]. rewrite Hr. rewrite (proj1 (farm_loop_spec f h h o pts (fzero pts) (hsim_refl h))).
    destruct (mapM (answer h o pts) f); reflexivity.
  Qed.
  Lemma velocity_field_heap h f o U0 pts : hsim h (fst (velocity_field h f o U0 pts)).
  Proof.
    unfold velocity_field.
    destruct (farm_loop h f o pts (fzero pts)) as [h' r] eqn:E. cbn [fst].
    change h' with (fst (h', r)). rewrite <- E. apply farm_loop_spec, hsim_refl.
  Qed.

  (** pointwise reading of a sum of fields *)
  Definition zero3 : pt := (#0, #0, #0).
  Definition at_pt (k : nat) (u : list pt) : pt := nth k u zero3.
  Lemma fsum_at k (vs : list (list pt)) u :
    Forall (fun v => len v = len u) vs -> (k < len u)%nat ->
    at_pt k (fsum u vs) = fold_left vadd (map (at_pt k) vs) (at_pt k u).
  Proof.
    revert u; induction vs as [|v vs IH]; intros u H Hk; auto.
    inversion H as [|? ? H1 H2]; subst.
    assert (E : len (fadd u v) = len u) by (apply fadd_length; auto).
    unfold fsum in *. cbn [fold_left map]. rewrite IH.
    - f_equal. unfold at_pt, fadd.
      apply nth_error_nth.
      rewrite map2_nth_error, (nth_error_nth' u zero3) by auto.
      rewrite (nth_error_nth' v zero3) by lia. reflexivity.
    - rewrite E; auto.
    - rewrite E; auto.
  Qed.
  Lemma answer_length h o pts i v : answer h o pts i = Ok v -> len v = len pts.
  Proof.
    unfold answer; destruct (nth_error h i) as [[t|]|]; try discriminate. apply compute_u_length.
  Qed.
  Lemma answers_length h o pts f us :
    mapM (answer h o pts) f = Ok us -> Forall (fun v => len v = len pts) us.
  Proof.
    intros H; apply mapM_ok in H. induction H; constructor; eauto using answer_length.
  Qed.
End F.

(** ** Reordering, in the extended reals (inf and NaN included) *)
Section FX.
  Notation pt := (XN * XN * XN)%type.
  Lemma vaddX_comm (a b : pt) : vadd a b = vadd b a.
  Proof. destruct a as [[? ?] ?], b as [[? ?] ?]; simpl. rewrite (xadd_comm t1), (xadd_comm t2), (xadd_comm t0). reflexivity. Qed.
  Lemma vaddX_assoc (a b c : pt) : vadd (vadd a b) c = vadd a (vadd b c).
  Proof. destruct a as [[? ?] ?], b as [[? ?] ?], c as [[? ?] ?]; simpl. rewrite !xadd_assoc. reflexivity. Qed.
  Lemma faddX_comm (a b : list pt) : fadd a b = fadd b a.
  Proof. revert b; induction a as [|x a IH]; intros [|y b]; unfold fadd in *; cbn [map2]; auto.
    rewrite IH, vaddX_comm; reflexivity. Qed.
  Lemma faddX_assoc (a b c : list pt) : fadd (fadd a b) c = fadd a (fadd b c).
  Proof. revert b c; induction a as [|x a IH]; intros [|y b] [|z c]; unfold fadd in *; cbn [map2]; auto.
    rewrite IH, vaddX_assoc; reflexivity. Qed.
  Lemma faddX_0_l (u pts : list pt) : len u = len pts -> fadd (fzero pts) u = u.
  Proof.
    revert pts; induction u as [|a u IH]; intros [|p pts] H; simpl in H; try discriminate; auto.
    unfold fadd, fzero in *. cbn [map map2]. rewrite IH by (injection H; auto). f_equal.
    destruct a as [[a b] c]. exact (f_equal2 pair (f_equal2 pair (xadd_0_l a) (xadd_0_l b)) (xadd_0_l c)).
  Qed.
  Lemma fsumX_add (vs : list (list pt)) u v : fsum (fadd u v) vs = fadd u (fsum v vs).
  Proof.
    revert u v; induction vs as [|w vs IH]; intros u v; auto. unfold fsum in *. cbn [fold_left].
    rewrite faddX_assoc, IH. reflexivity.
  Qed.
  Lemma fsumX_app (vs ws : list (list pt)) pts :
    Forall (fun v => len v = len pts) vs ->
    fsum (fzero pts) (vs ++ ws) = fadd (fsum (fzero pts) vs) (fsum (fzero pts) ws).
  Proof.
    intros H. unfold fsum at 1. rewrite fold_left_app.
    change (fold_left fadd vs (fzero pts)) with (fsum (fzero pts) vs).
    set (a := fsum (fzero pts) vs).
    assert (La : len a = len pts).
    { unfold a. rewrite fsum_length; rewrite fzero_length; auto. }
    change (fold_left fadd ws a) with (fsum a ws).
    rewrite <- (faddX_0_l a pts La) at 1.
    rewrite faddX_comm. rewrite fsumX_add. reflexivity.
  Qed.
  Lemma fsumX_perm (vs ws : list (list pt)) u : Permutation vs ws -> fsum u vs = fsum u ws.
  Proof.
    intros H; revert u; induction H as [|x l l' H IH|x y l|l l' l'' H1 IH1 H2 IH2]; intros u; auto.
    - unfold fsum in *; cbn [fold_left]; auto.
    - unfold fsum; cbn [fold_left]. rewrite !faddX_assoc, (faddX_comm y x). reflexivity.
    - rewrite IH1; auto.
  Qed.
  Lemma mapM_perm {A B} (f : A -> result B) l l' v :
    Permutation l l' -> mapM f l = Ok v -> exists v', mapM f l' = Ok v' /\ Permutation v v'.
  Proof.
    intros H; revert v; induction H as [|x l l' H IH|x y l|l l' l'' H1 IH1 H2 IH2]; intros v Hv.
    - exists v; split; auto.
    - simpl in *. destruct (f x) as [b|]; [|discriminate]. simpl in *.
      destruct (mapM f l) as [bs|]; [|discriminate]. simpl in Hv; injection Hv; intros <-.
      destruct (IH bs eq_refl) as (v' & E & P). rewrite E. exists (b :: v'); auto.
    - simpl in *. destruct (f y) as [b|]; [|discriminate]. simpl in *.
      destruct (f x) as [c|]; [|discriminate]. simpl in *.
      destruct (mapM f l) as [bs|]; [|discriminate]. simpl in Hv; injection Hv; intros <-.
      exists (c :: b :: bs); split; auto. apply perm_swap.
    - destruct (IH1 v Hv) as (v1 & E1 & P1). destruct (IH2 v1 E1) as (v2 & E2 & P2).
      exists v2; split; auto. eapply perm_trans; eauto.
  Qed.

  Lemma farm_app h f g o pts va vb :
    snd (velocity_field h f o None pts) = Ok va ->
    snd (velocity_field h g o None pts) = Ok vb ->
    snd (velocity_field (N := XN) h (f ++ g) o None pts) = Ok (fadd va vb).
  Proof.
    rewrite !velocity_field_spec, mapM_app.
    destruct (mapM (answer h o pts) f) as [us|] eqn:E; [|discriminate].
    destruct (mapM (answer h o pts) g) as [ws|]; [|discriminate].
    cbn [bind add_free]. intros H1 H2. injection H1; intros <-. injection H2; intros <-.
    f_equal. apply fsumX_app. eapply answers_length; eauto.
  Qed.
  Lemma farm_app_err h f g o U0 pts :
    (exists e, snd (velocity_field h f o U0 pts) = Err e) \/
    (exists e, snd (velocity_field h g o U0 pts) = Err e) ->
    exists e, snd (velocity_field (N := XN) h (f ++ g) o U0 pts) = Err e.
  Proof.
    rewrite !velocity_field_spec, mapM_app.
    destruct (mapM (answer h o pts) f) as [us|e]; [|simpl; eauto].
    destruct (mapM (answer h o pts) g) as [ws|e]; simpl; eauto.
    intros [[e H]|[e H]]; discriminate.
  Qed.
  Lemma farm_perm h f g o U0 pts v :
    Permutation f g -> snd (velocity_field h f o U0 pts) = Ok v ->
    snd (velocity_field (N := XN) h g o U0 pts) = Ok v.
  Proof.
    intros HP. rewrite !velocity_field_spec.
    destruct (mapM (answer h o pts) f) as [us|] eqn:E; [|discriminate].
    destruct (mapM_perm _ _ _ _ HP E) as (ws & E2 & P2). rewrite E2. cbn [bind].
    intros H; injection H; intros <-. rewrite (fsumX_perm _ _ _ P2). reflexivity.
  Qed.
End FX.

(** ** List operations (C03) *)
Lemma in_firstn_or {A} n (l : list A) a : In a (firstn n l) -> In a l.
Proof. intros H. rewrite <- (firstn_skipn n l). apply in_or_app; auto. Qed.
Lemma in_skipn_or {A} n (l : list A) a : In a (skipn n l) -> In a l.
Proof. intros H. rewrite <- (firstn_skipn n l). apply in_or_app; auto. Qed.
Section Ops.
  Context {N : Num}.
  Lemma farm_append_inv (h : heap N) f op :
    (forall i, In i f -> is_wt h i = true) ->
    (match op with
     | OpAppend _ | OpPop _ => True
     | OpNew l | OpExtend l | OpIadd l => forall i, In i l -> is_wt h i = true
     | OpInsert _ i | OpSetItem _ i => is_wt h i = true
     end) ->
    forall i, In i (fst (farm_step h f op)) -> is_wt h i = true.
  Proof.
    intros H Hop i. destruct op as [l|j|l|p j|l|p j|p]; simpl in *; auto.
    - destruct (is_wt h j) eqn:E; simpl; auto. rewrite in_app_iff; simpl. intros [|[<-|[]]]; auto.
    - rewrite in_app_iff; intros [K|K]; auto.
    - rewrite in_app_iff; simpl. intros [K|[<-|K]]; auto.
      + apply H. eapply (in_firstn_or p f i K).
      + apply H. eapply (in_skipn_or p f i K).
    - rewrite in_app_iff; intros [K|K]; auto.
    - destruct (Nat.ltb p (len f)); simpl; auto. intros K.
      assert (KK : forall (l : list nat) p, In i (upd l p j) -> In i l \/ i = j).
      { clear. induction l as [|a l IH]; intros [|p]; simpl; auto.
        - intros [<-|]; auto.
        - intros [|K]; auto. destruct (IH _ K); auto. }
      destruct (KK _ _ K) as [K1 | -> ]; auto.
    - destruct (Nat.ltb p (len f)); simpl; auto. rewrite in_app_iff. intros [K|K]; apply H.
      + eapply (in_firstn_or p f i K).
      + eapply (in_skipn_or (S p) f i K).
  Qed.
End Ops.
