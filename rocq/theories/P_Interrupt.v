(** * Calls interrupted between two attribute accesses: C142, C143 *)
From Coq Require Import ZArith List Bool String Arith Lia.
From Verif Require Import Num NumR NumX M_Elliptic M_Line M_Ring M_Doublet M_Misc M_Cylinder M_Skewed M_Solver M_Turbine M_Farm M_Threads L_List L_Turbine L_State L_Farm P_Threads P_Threads2.
Import ListNotations.
Local Open Scope num_scope.
Local Notation len := List.length.

(** ** Specification *)
Section Spec.
  Context {N : Num}.
  (** [u'] sets everything that [u] sets: same method on the same objects; update_loading with a Lambda and accepted, a layout of the right shape *)
  Definition supersedes (h : heap N) (u' u : call N) : Prop :=
    match u', u with
    | CYaw i _, CYaw j _ => i = j
    | CPos i _, CPos j _ => i = j
    | CWind i _, CWind j _ => i = j
    | CChi i _, CChi j _ => i = j
    | CLoad i _ _ _ _ L _ _, CLoad j _ _ _ _ _ _ _ => i = j /\ L <> None /\ alone_result h u' = Ok ONone
    | CLayout f l, CLayout g _ => f = g /\ len l = len f /\ Forall (fun row => len row = 3%nat) l
    | _, _ => False
    end.
  (** the attributes that update_loading assigns, in its order *)
  Definition load_order : list {B & @attr N B} := [existT _ _ aGt; existT _ _ aGl; existT _ _ aGr; existT _ _ aLambda; existT _ _ ar; existT _ _ aCt].
  (** [t] with its first [k] loading attributes taken from [t'] *)
  Definition mixed (k : nat) (t t' : turbine N) : turbine N := fold_left (fun s a => put (projT2 a) (get (projT2 a) t') s) (firstn k load_order) t.
End Spec.

Section States.
  Context {N : Num} (i : nat).
  Definition allst {A} (t : turbine N) (p : prog N A) (P : turbine N -> Prop) : Prop := forall n, P (tstop n t p).
  Lemma allst_ret {A} t (x : result A) (P : turbine N -> Prop) : P t -> allst t (Ret x) P.
  Proof. intros H [|n]; exact H. Qed.
  Lemma allst_get {A B} t j (a : attr B) (k : result B -> prog N A) (P : turbine N -> Prop) : P t -> allst t (k (Ok (get a t))) P -> allst t (Get j a k) P.
  Proof. intros H K [|n]; [exact H|exact (K n)]. Qed.
  Lemma allst_put {A B} t j (a : attr B) v (k : prog N A) (P : turbine N -> Prop) : P t -> allst (put a v t) k P -> allst t (Put j a v k) P.
  Proof. intros H K [|n]; [exact H|exact (K n)]. Qed.
  Lemma tstop_map {A B} (f : A -> B) (p : prog N A) : forall n t, tstop n t (mapP f p) = tstop n t p.
  Proof. unfold mapP. induction p as [x|j B' a c IH|j B' a v c IH]; intros [|n] t; cbn [tstop thenP]; auto. Qed.
  Lemma mixed_same k (t : turbine N) : mixed k t t = t.
  Proof. unfold mixed, load_order. destruct t as [a1 a2 a3 a4 a5 a6 a7 a8 a9 b1 b2 b3 b4 gl b5 b6 b7 b8 b9 ct nm]. destruct gl, ct; do 7 (destruct k as [|k]; [reflexivity|]); reflexivity. Qed.
  (** the states that update_loading goes through *)
  Lemma load_states minim r Ct G L n f (t : turbine N) : allst t (loadP i minim r Ct G L n f) (fun s => exists k, s = mixed k t (fst (update_loading minim r Ct G L n f t))).
  Proof.
    remember (fst (update_loading minim r Ct G L n f t)) as t' eqn:ET. set (P := fun s => exists k, s = mixed k t t').
    assert (P0 : P t) by (exists 0%nat; reflexivity).
    unfold loadP, bindP at 1, readP at 1. cbn [thenP]. apply allst_get; [exact P0|]. cbn [get].
    assert (W : forall A (k : N -> prog N A), allst t (k (match n with None => #0 | Some _ => t_R t end)) P -> allst t (bindP (match n with None => lift (Ok (#0)) | Some _ => readP i aR end) k) P).
    { intros A k H. destruct n; [unfold bindP, readP; cbn [thenP]; apply allst_get; [exact P0|exact H]|exact H]. }
    apply W. clear W. set (R0 := match n with None => #0 | Some _ => t_R t end).
    assert (E : load_interp R0 r Ct G n = load_interp (t_R t) r Ct G n) by (unfold R0; destruct n; reflexivity). rewrite E. clear E R0.
    unfold bindP at 1, lift at 1. cbn [thenP].
    unfold update_loading in ET. unfold mbind at 1 in ET. unfold mlift at 1 in ET. destruct (load_interp (t_R t) r Ct G n) as [[[r' Ct'] G']|e] eqn:EI; [|apply allst_ret; exact P0].
    assert (W : forall A (k : option N -> prog N A), allst t (k (match L with Some l => Some l | None => t_Lambda t end)) P -> allst t (bindP (match L with Some l => lift (Ok (Some l)) | None => readP i aLambda end) k) P).
    { intros A k H. destruct L; [exact H|unfold bindP, readP; cbn [thenP]; apply allst_get; [exact P0|exact H]]. }
    apply W. clear W. destruct (match L with Some l => Some l | None => t_Lambda t end) as [l|]; [|apply allst_ret; exact P0].
    unfold bindP at 1, readP at 1. cbn [thenP]. apply allst_get; [exact P0|]. cbn [get].
    assert (W : forall g gl Gr, t' = set_Ct (set_r (set_Lambda (set_Gr (set_gl (set_gt t (Some g)) gl) Gr) (Some l)) r') Ct' ->
      allst t (bindP (assign3P i g gl Gr) (fun _ => bindP (writeP i aLambda (Some l)) (fun _ => bindP (writeP i ar r') (fun _ => writeP i aCt (Some Ct'))))) P).
    { intros g gl Gr E. unfold assign3P, bindP, writeP. cbn [thenP].
      apply allst_put; [exact P0|]. apply allst_put; [exists 1%nat; rewrite E; reflexivity|]. apply allst_put; [exists 2%nat; rewrite E; reflexivity|].
      apply allst_put; [exists 3%nat; rewrite E; reflexivity|]. apply allst_put; [exists 4%nat; rewrite E; reflexivity|]. apply allst_put; [exists 5%nat; rewrite E; reflexivity|].
      apply allst_ret. exists 6%nat. rewrite E. reflexivity. }
    unfold mbind, mlift, massign, mraise in ET. destruct f as [f|].
    - destruct Ct' as [c|]; [|apply allst_ret; exact P0]. destruct (f c) as [g|e] eqn:EF; [|unfold bindP, lift; cbn [thenP]; rewrite ?EF; apply allst_ret; exact P0].
      unfold bindP at 2, lift at 1. cbn [thenP]. rewrite ?EF. apply W. exact ET.
    - destruct Ct' as [c|]; [|destruct G' as [g|]; [|apply allst_ret; exact P0]].
      + unfold bindP at 2, readP at 1. unfold bindP at 1. cbn [thenP]. apply allst_get; [exact P0|]. cbn [get]. unfold bindP at 1, lift at 1. cbn [thenP].
        destruct (let* rr := need r' in _) as [w|e]; [|apply allst_ret; exact P0]. apply W. exact ET.
      + unfold bindP at 2, readP at 1. unfold bindP at 1. cbn [thenP]. apply allst_get; [exact P0|]. cbn [get]. unfold bindP at 1, lift at 1. cbn [thenP].
        destruct (let* rr := need r' in _) as [w|e]; [|apply allst_ret; exact P0]. apply W. exact ET.
  Qed.
End States.

Section Heal.
  Context {N : Num}.
  (** an update_loading that is accepted assigns the six attributes *)
  Lemma load_accepted minim r Ct G L n f (t : turbine N) x : snd (update_loading minim r Ct G L n f t) = Ok x ->
    exists g gl Gr l r' Ct', match L with Some x => Some x | None => t_Lambda t end = Some l /\
      forall s, t_U0 s = t_U0 t -> t_R s = t_R t -> match L with Some x => Some x | None => t_Lambda s end = Some l ->
        update_loading minim r Ct G L n f s = (set_Ct (set_r (set_Lambda (set_Gr (set_gl (set_gt s (Some g)) gl) Gr) (Some l)) r') Ct', Ok tt).
  Proof.
    unfold update_loading. unfold mbind at 1, mlift at 1. destruct (load_interp (t_R t) r Ct G n) as [[[r' Ct'] G']|e] eqn:EI; [|discriminate].
    destruct (match L with Some l => Some l | None => t_Lambda t end) as [l|]; [|discriminate]. unfold mbind, mlift, massign, mraise.
    destruct f as [f|]; [destruct Ct' as [c|]; [destruct (f c) as [g|] eqn:EF|]|destruct Ct' as [c|]; [|destruct G' as [g|]]]; try discriminate.
    - intros _. exists g, None, None, l, r', (Some c). split; [reflexivity|]. intros s E1 E2 E3. rewrite ?E1, ?E2, EI, E3, EF. reflexivity.
    - destruct (let* rr := need r' in _) as [w|e] eqn:EW; [|discriminate]. intros _. exists (w_gt w), (w_gl w), (w_Gr w), l, r', (Some c). split; [reflexivity|]. intros s E1 E2 E3. rewrite ?E1, ?E2, EI, E3, EW. reflexivity.
    - destruct (let* rr := need r' in _) as [w|e] eqn:EW; [|discriminate]. intros _. exists (w_gt w), (w_gl w), (w_Gr w), l, r', None. split; [reflexivity|]. intros s E1 E2 E3. rewrite ?E1, ?E2, EI, E3, EW. reflexivity.
  Qed.
  (** whatever the six attributes of [t'] are *)
  Lemma mixed_spec k (t t' : turbine N) : t_U0 (mixed k t t') = t_U0 t /\ t_R (mixed k t t') = t_R t /\ (t_Lambda (mixed k t t') = t_Lambda t \/ t_Lambda (mixed k t t') = t_Lambda t') /\
    forall g gl Gr l r c, set_Ct (set_r (set_Lambda (set_Gr (set_gl (set_gt (mixed k t t') g) gl) Gr) l) r) c = set_Ct (set_r (set_Lambda (set_Gr (set_gl (set_gt t g) gl) Gr) l) r) c.
  Proof. unfold mixed, load_order. do 6 (destruct k as [|k]; [cbn; destruct (t_gl t'); auto|]). destruct k; cbn; destruct (t_gl t'), (t_Ct t'); auto. Qed.
  Lemma load_again minim r Ct G L n f (t : turbine N) k : update_loading minim r Ct G L n f (mixed k t (fst (update_loading minim r Ct G L n f t))) = update_loading minim r Ct G L n f t.
  Proof.
    destruct (snd (update_loading minim r Ct G L n f t)) as [x|e] eqn:E; [|rewrite (update_loading_atomic _ _ _ _ _ _ _ _ _ E), mixed_same; reflexivity].
    destruct (load_accepted _ _ _ _ _ _ _ _ _ E) as (g & gl & Gr & l & r' & Ct' & EL & K). rewrite (K t eq_refl eq_refl EL). cbn [fst].
    destruct (mixed_spec k t (set_Ct (set_r (set_Lambda (set_Gr (set_gl (set_gt t (Some g)) gl) Gr) (Some l)) r') Ct')) as (E1 & E2 & E3 & E4).
    rewrite K; auto; [rewrite E4; reflexivity|]. destruct L; [exact EL|]. destruct E3 as [-> | ->]; [exact EL|reflexivity].
  Qed.
  Lemma load_over minim r Ct G l n f minim2 r2 Ct2 G2 L2 n2 f2 (t : turbine N) k x : snd (update_loading minim r Ct G (Some l) n f t) = Ok x ->
    update_loading minim r Ct G (Some l) n f (mixed k t (fst (update_loading minim2 r2 Ct2 G2 L2 n2 f2 t))) = update_loading minim r Ct G (Some l) n f t.
  Proof.
    intros E. destruct (load_accepted _ _ _ _ _ _ _ _ _ E) as (g & gl & Gr & l' & r' & Ct' & EL & K). rewrite (K t eq_refl eq_refl EL).
    destruct (mixed_spec k t (fst (update_loading minim2 r2 Ct2 G2 L2 n2 f2 t))) as (E1 & E2 & _ & E4). rewrite K; auto. rewrite E4. reflexivity.
  Qed.

  (** ** Layouts: the objects before the first one that is not a turbine *)
  Fixpoint moved (h : heap N) (f : farm) (j : nat) : Prop :=
    match f with [] => False | i :: f => match nth_error h i with Some (OWT _) => j = i \/ moved h f j | _ => False end end.
  (** the same objects except for positions that a layout of [f] sets *)
  Definition differ (f : farm) (h h' : heap N) : Prop := len h' = len h /\
    forall j, nth_error h' j = nth_error h j \/ (moved h f j /\ exists t p, nth_error h j = Some (OWT t) /\ nth_error h' j = Some (OWT (set_rhub t p))).
  Lemma differ_refl f h : differ f h h. Proof. split; auto. Qed.
  Definition same_kind (h h' : heap N) : Prop := forall j, match nth_error h j, nth_error h' j with Some (OWT _), Some (OWT _) => True | Some (OWT _), _ => False | _, Some (OWT _) => False | _, _ => True end.
  Lemma moved_kind h h' : same_kind h h' -> forall f j, moved h f j -> moved h' f j.
  Proof. intros S. induction f as [|i f IH]; intros j; cbn [moved]; [auto|]. specialize (S i). destruct (nth_error h i) as [[t|]|], (nth_error h' i) as [[t'|]|]; try contradiction. intros [E|M]; auto. Qed.
  Lemma kind_upd (h : heap N) i t t' : nth_error h i = Some (OWT t) -> same_kind h (upd h i (OWT t')).
  Proof.
    intros E j. destruct (Nat.eq_dec i j) as [<- |Nj]; [rewrite upd_same by (eapply nth_error_some_lt; eauto); rewrite E; exact I|]. rewrite upd_other by exact Nj. destruct (nth_error h j) as [[|]|]; exact I.
  Qed.
  Lemma kind_sym h h' : same_kind h h' -> same_kind h' h.
  Proof. intros S j. specialize (S j). destruct (nth_error h j) as [[|]|], (nth_error h' j) as [[|]|]; auto. Qed.
  Lemma stop_layout : forall f rows n (h : heap N), differ f h (stop n h (layout_loopP f rows)).
  Proof.
    induction f as [|i f IH]; intros [|p rows] n h; try (destruct n; apply differ_refl). cbn [layout_loopP]. unfold bindP, readP, writeP. cbn [thenP].
    destruct n as [|n]; [apply differ_refl|]. cbn [stop]. unfold lookup. destruct (nth_error h i) as [[t|]|] eqn:E; try (destruct n; apply differ_refl).
    destruct n as [|n]; [apply differ_refl|]. cbn [stop]. unfold store. rewrite E. cbn [put]. specialize (IH rows n (upd h i (OWT (set_rhub t p)))). destruct IH as [L D].
    rewrite upd_length in L. split; [exact L|]. intros j. destruct (Nat.eq_dec i j) as [<- |Nj].
    - right. cbn [moved]. rewrite E. split; [left; reflexivity|]. specialize (D i). rewrite upd_same in D by (eapply nth_error_some_lt; eauto).
      destruct D as [D|(_ & t2 & p2 & E2 & E3)]; [exists t, p; auto|]. injection E2 as <-. exists t, p2. split; [reflexivity|exact E3].
    - specialize (D j). rewrite upd_other in D by exact Nj. destruct D as [D|(M & t2 & p2 & E2 & E3)]; [left; exact D|right]. split; [|exists t2, p2; auto].
      cbn [moved]. rewrite E. right. eapply moved_kind; [|exact M]. apply kind_sym, (kind_upd h i t). exact E.
  Qed.
  Lemma differ_layout : forall f rows (h h' : heap N), len rows = len f -> differ f h h' -> layout_loop h' f rows = layout_loop h f rows.
  Proof.
    assert (EQ : forall h h' : heap N, (forall j, nth_error h' j = nth_error h j) -> h' = h) by (intros h h' H; apply nth_error_ext; exact H).
    induction f as [|i f IH]; intros [|p rows] h h' L [LD D]; try discriminate.
    - cbn [layout_loop]. f_equal. apply EQ. intros j. destruct (D j) as [H|[[] _]]. exact H.
    - cbn [layout_loop]. pose proof (D i) as Di. cbn [moved] in D, Di. destruct (nth_error h i) as [[t|]|] eqn:E.
      + assert (E' : exists q, nth_error h' i = Some (OWT (set_rhub t q))).
        { destruct Di as [Di|(_ & t2 & q & E2 & E3)]; [exists (t_rhub t); rewrite Di; destruct t; reflexivity|]. injection E2 as <-. exists q. exact E3. }
        destruct E' as [q E']. rewrite E'. apply IH; [cbn in L; lia|]. split; [rewrite !upd_length; exact LD|]. intros j.
        destruct (Nat.eq_dec i j) as [<- |Nj]; [left; rewrite !upd_same by (eapply nth_error_some_lt; eauto); reflexivity|]. rewrite !upd_other by exact Nj.
        destruct (D j) as [H|([-> |M] & t2 & p2 & E2 & E3)]; [left; exact H|congruence|right]. split; [|exists t2, p2; auto]. eapply moved_kind; [|exact M]. apply (kind_upd h i t). exact E.
      + assert (EH : h' = h) by (apply EQ; intros j; destruct (D j) as [H|[[] _]]; exact H). rewrite EH, E. reflexivity.
      + assert (EH : h' = h) by (apply EQ; intros j; destruct (D j) as [H|[[] _]]; exact H). rewrite EH, E. reflexivity.
  Qed.
End Heal.

Section Calls.
  Context {N : Num}.
  (** a call about one turbine, interrupted, in terms of that turbine *)
  Lemma stop_one {A} (h : heap N) i (p : prog N A) (F : A -> outcome N) n (P : turbine N -> Prop) t : only i p -> nth_error h i = Some (OWT t) -> P t -> (forall m, P (tstop m t p)) ->
    exists s, stop n h (bindP (readP i aClass) (fun _ => mapP F p)) = upd h i (OWT s) /\ P s.
  Proof.
    intros H E P0 K. unfold bindP, readP. cbn [thenP]. destruct n as [|n]; cbn [stop]; [exists t; split; [symmetry; apply upd_id; exact E|exact P0]|]. unfold lookup. rewrite E.
    exists (tstop n t p). split; [|apply K]. rewrite stop_map. rewrite <- (upd_id h i (OWT t) E) at 1. apply stop_only; [eapply nth_error_some_lt; eauto|exact H].
  Qed.
  Lemma stop_absent {A} (h : heap N) i (p : prog N A) n : (forall t, nth_error h i <> Some (OWT t)) -> stop n h (bindP (readP i aClass) (fun _ => p)) = h.
  Proof. intros H. unfold bindP, readP. cbn [thenP]. destruct n as [|n]; [reflexivity|]. cbn [stop]. unfold lookup. destruct (nth_error h i) as [[t|]|]; [exfalso; exact (H t eq_refl)|destruct n; reflexivity..]. Qed.
  (** two states of one turbine from which a call does the same *)
  Lemma run_one {A} (h : heap N) i (p : prog N A) (F : A -> outcome N) s t : only i p -> nth_error h i = Some (OWT t) -> trun s p = trun t p ->
    run (upd h i (OWT s)) (bindP (readP i aClass) (fun _ => mapP F p)) = run h (bindP (readP i aClass) (fun _ => mapP F p)).
  Proof.
    intros H E K. rewrite !seq_one by exact H. rewrite E, upd_same by (eapply nth_error_some_lt; eauto). rewrite K, upd_upd. reflexivity.
  Qed.
  Lemma is_wt_dec (h : heap N) i : (exists t, nth_error h i = Some (OWT t)) \/ (forall t, nth_error h i <> Some (OWT t)).
  Proof. destruct (nth_error h i) as [[t|]|]; [left; eauto|right; discriminate..]. Qed.
  (** common part of the two theorems below *)
  Lemma heal_one {A B} (h : heap N) i (p : prog N A) (q : prog N B) (F : A -> outcome N) (G : B -> outcome N) n : only i p -> only i q ->
    (forall t m, nth_error h i = Some (OWT t) -> trun (tstop m t p) q = trun t q) ->
    run (stop n h (bindP (readP i aClass) (fun _ => mapP F p))) (bindP (readP i aClass) (fun _ => mapP G q)) = run h (bindP (readP i aClass) (fun _ => mapP G q)).
  Proof.
    intros Hp Hq K. destruct (is_wt_dec h i) as [[t E]|E]; [|rewrite stop_absent by exact E; reflexivity].
    destruct (stop_one h i p F n (fun s => trun s q = trun t q) t Hp E eq_refl (fun m => K t m E)) as (s & -> & Es). apply (run_one h i q G s t Hq E Es).
  Qed.
  Lemma yaw_any i yaw yaw' m (t : turbine N) : trun (tstop m t (yawP i yaw)) (yawP i yaw') = trun t (yawP i yaw').
  Proof. do 7 (destruct m as [|m]; [reflexivity|]). reflexivity. Qed.
  Lemma write_any {B} i (a : attr B) v v' m (t : turbine N) : (forall s, put a v' (put a v s) = put a v' s) -> trun (tstop m t (writeP i a v)) (writeP i a v') = trun t (writeP i a v').
  Proof. intros H. unfold writeP. destruct m as [|m]; [reflexivity|]. cbn [tstop]. destruct m; cbn [tstop trun]; rewrite H; reflexivity. Qed.
End Calls.

(** C142.  A query interrupted after any number of attribute accesses changes no answer: every query returns what it would have returned. *)
Lemma hsim_answers {N : Num} (h h' : heap N) q : hsim h h' -> alone h' q = alone h q.
Proof.
  intros S. assert (ON : forall i (g : turbine N -> result (outcome N)), (forall t, g (set_chif t (Some (chi_now t))) = g t) ->
    match nth_error h' i with Some (OWT t) => g t | _ => Err EAttributeError end = match nth_error h i with Some (OWT t) => g t | _ => Err EAttributeError end).
  { intros i g H. specialize (S i). destruct (nth_error h i) as [[t|]|], (nth_error h' i) as [[t'|]|]; try contradiction; auto. destruct S as [-> | ->]; auto. }
  destruct q as [i o pts|i|i|i nP|f o U0 pts|f| | | | | |]; try reflexivity; cbn [alone]; f_equal.
  - apply ON. intros t. rewrite compute_u_set_chi. reflexivity.
  - apply ON. reflexivity.
  - apply ON. reflexivity.
  - apply ON. reflexivity.
  - f_equal. rewrite !velocity_field_spec. assert (E : mapM (answer h' o pts) f = mapM (answer h o pts) f); [|rewrite E; reflexivity].
    induction f as [|i f IH]; [reflexivity|]. cbn [mapM]. rewrite IH. assert (E : answer h' o pts i = answer h o pts i); [|rewrite E; reflexivity].
    unfold answer. specialize (S i). destruct (nth_error h i) as [[t|]|], (nth_error h' i) as [[t'|]|]; try contradiction; auto. destruct S as [-> | ->]; [reflexivity|apply compute_u_set_chi].
  - f_equal. unfold layout_get. induction f as [|i f IH]; [reflexivity|]. cbn [mapM]. rewrite IH. assert (E : obj_pos h' i = obj_pos h i); [|rewrite E; reflexivity].
    unfold obj_pos. specialize (S i). destruct (nth_error h i) as [[t|]|], (nth_error h' i) as [[t'|]|]; try contradiction; auto. destruct S as [-> | ->]; reflexivity.
Qed.
Theorem C142_query_interrupted : forall (N : Num) (h : heap N) (q : call N) n, is_query_call q = true -> (forall i t, nth_error h i = Some (OWT t) -> loaded_ok t) ->
  forall q', alone (stop n h (callP q)) q' = alone h q'.
Proof.
  intros N h q n Q WF q'. apply hsim_answers. destruct (alone h q) as [r|] eqn:E; [|unfold is_query_call in Q; destruct q; discriminate].
  destruct (safe_stop (fun _ => true) h (callP q) (fun _ x => x = r) n (fun _ => false) h) as (c' & O).
  - apply okh_start.
  - apply (safe_query (fun _ => true) h (fun i t _ => WF i t)); auto.
  - intros i. specialize (O i eq_refl). destruct (nth_error h i) as [[t|]|], (nth_error (stop n h (callP q)) i) as [[t'|]|]; auto. destruct O as [O|[O _]]; [right|left]; exact O.
Qed.
(** An update interrupted and made again has the effect and the result of an update that is not interrupted. *)
Theorem C142_retry : forall (N : Num) (h : heap N) (u : call N) n, is_query_call u = false -> run (stop n h (callP u)) (callP u) = run h (callP u).
Proof.
  intros N h u n Q. destruct u as [i o pts|i|i|i nP|f o U0 pts|f|i yaw|i p|i p|i x|i minim r Ct G L k g|f l]; try discriminate Q; cbn [callP].
  - apply heal_one; try apply only_yaw. intros t m _. apply yaw_any.
  - apply heal_one; try apply only_write. intros t m _. apply write_any. reflexivity.
  - apply heal_one; try apply only_write. intros t m _. apply write_any. reflexivity.
  - apply heal_one; try apply only_write. intros t m _. apply write_any. reflexivity.
  - apply heal_one; try apply only_load. intros t m _. rewrite !trun_load. destruct (load_states i minim r Ct G L k g t m) as [j ->]. apply load_again.
  - rewrite stop_map, !run_map. unfold layout_setP. destruct (rows3 l) as [rows|]; [|destruct n; reflexivity]. destruct (Nat.eqb (len rows) (len f)) eqn:EL; [|destruct n; reflexivity].
    rewrite !run_layout. apply Nat.eqb_eq in EL. rewrite (differ_layout f rows h _ EL (stop_layout f rows n h)). reflexivity.
Qed.
(** So has any later update that sets everything the interrupted one sets: nothing of the interrupted one is left. *)
Theorem C142_superseded : forall (N : Num) (h : heap N) (u u' : call N) n, supersedes h u' u -> run (stop n h (callP u)) (callP u') = run h (callP u').
Proof.
  intros N h u u' n S.
  destruct u' as [i o pts|i|i|i nP|f o U0 pts|f|i yaw|i p|i p|i x|i minim r Ct G L k g|f l], u as [i' o' pts'|i'|i'|i' nP'|f' o' U0' pts'|f'|i' yaw'|i' p'|i' p'|i' x'|i' minim' r' Ct' G' L' k' g'|f' l']; cbn [supersedes] in S; try contradiction.
  - subst i'. cbn [callP]. apply heal_one; try apply only_yaw. intros t m _. apply yaw_any.
  - subst i'. cbn [callP]. apply heal_one; try apply only_write. intros t m _. apply write_any. reflexivity.
  - subst i'. cbn [callP]. apply heal_one; try apply only_write. intros t m _. apply write_any. reflexivity.
  - subst i'. cbn [callP]. apply heal_one; try apply only_write. intros t m _. apply write_any. reflexivity.
  - destruct S as (<- & NL & S). destruct L as [L|]; [|congruence]. cbn [callP]. apply heal_one; try apply only_load. intros t m E. rewrite !trun_load.
    destruct (load_states i minim' r' Ct' G' L' k' g' t m) as [j ->]. unfold alone_result in S. cbn [alone] in S. rewrite E in S.
    destruct (snd (update_loading minim r Ct G (Some L) k g t)) as [x|e] eqn:EX; [|discriminate]. eapply load_over. exact EX.
  - destruct S as (<- & L & F). cbn [callP]. rewrite stop_map, !run_map.
    assert (R : exists rows, rows3 l = Some rows /\ len rows = len l).
    { clear - F. induction F as [|r l H F IH]; [exists []; auto|]. destruct IH as (rows & E & L). destruct r as [|a [|b [|c [|d r]]]]; try discriminate. exists ((a, b, c) :: rows). cbn [rows3 row3]. rewrite E. split; [reflexivity|cbn; congruence]. }
    destruct R as (rows & E & ER). assert (EP : layout_setP f l = layout_loopP f rows) by (unfold layout_setP; rewrite E, ER, L, Nat.eqb_refl; reflexivity). rewrite EP. rewrite !run_layout.
    assert (D : differ f h (stop n h (layout_setP f l'))).
    { unfold layout_setP. destruct (rows3 l') as [rows'|]; [|destruct n; apply differ_refl]. destruct (Nat.eqb (len rows') (len f)); [apply stop_layout|destruct n; apply differ_refl]. }
    rewrite (differ_layout f rows h _ (eq_trans ER L) D). reflexivity.
Qed.
(** C143.  What an interrupted update_loading leaves: the first [k] of gamma_t, gamma_l, Gamma_r, Lambda, r, Ct as the finished call leaves them, the rest as before; nothing changed if the call is refused. *)
Theorem C143_load_interrupted : forall (N : Num) (h : heap N) i minim r Ct G L m f n t, nth_error h i = Some (OWT t) ->
  exists k, stop n h (callP (CLoad i minim r Ct G L m f)) = upd h i (OWT (mixed k t (fst (update_loading minim r Ct G L m f t)))).
Proof.
  intros N h i minim r Ct G L m f n t E. cbn [callP].
  destruct (stop_one h i (loadP i minim r Ct G L m f) (fun _ => ONone) n (fun s => exists k, s = mixed k t (fst (update_loading minim r Ct G L m f t))) t (only_load i minim r Ct G L m f) E) as (s & -> & k & ->).
  - exists 0%nat. reflexivity.
  - exact (load_states i minim r Ct G L m f t).
  - exists k. reflexivity.
Qed.
Theorem C143_load_refused : forall (N : Num) (h : heap N) i minim r Ct G L m f n t e, nth_error h i = Some (OWT t) -> snd (update_loading minim r Ct G L m f t) = Err e ->
  stop n h (callP (CLoad i minim r Ct G L m f)) = h.
Proof.
  intros N h i minim r Ct G L m f n t e E R. destruct (C143_load_interrupted N h i minim r Ct G L m f n t E) as [k ->].
  rewrite (update_loading_atomic _ _ _ _ _ _ _ _ _ R), mixed_same. apply upd_id. exact E.
Qed.

(** The full claim: an interrupted update leaves a turbine that answers as before it, or as after it. *)
Definition C143_full (N : Num) : Prop := forall (h : heap N) (u q : call N) n, (forall i t, nth_error h i = Some (OWT t) -> loaded_ok t) -> is_query_call u = false -> is_query_call q = true ->
  alone (stop n h (callP u)) q = alone h q \/ alone (stop n h (callP u)) q = alone (alone_after h u) q.
(** A turbine with one cylinder, loaded anew with two: interrupted after its first assignment, the velocity query raises ValueError; before it and after it, it answers. *)
Theorem C143_load_torn : forall (N : Num) (h : heap N) i t minim r Ct Lam f g1 r1 c1 c2 g p o,
  nth_error h i = Some (OWT t) -> t_gt t = Some [g1] -> t_gl t = Some None -> t_r t = Some [r1] -> o_Model o = Some "VC"%string -> o_root o = false -> o_longi o = false ->
  r = Some [c1; c2] -> f Ct = Ok [g; p] ->
  let u := CLoad i minim r (Some Ct) None (Some Lam) None (Some f) in
  forall pts, (exists v, alone h (QU i o pts) = Some (Ok v)) /\ alone (stop 4 h (callP u)) (QU i o pts) = Some (Err EValueError) /\ (exists v, alone (alone_after h u) (QU i o pts) = Some (Ok v)).
Proof.
  intros N h i t minim r Ct Lam f g1 r1 c1 c2 g p o E EG EGl Er EM ER EL Hr Hf u pts. split; [|split].
  - cbn [alone]. rewrite E. unfold compute_u. cbn [snd]. rewrite EG, EM. unfold cu_root. rewrite ER. cbn [bind]. unfold cu_single, gl_active1. rewrite EL.
    set (ch := chi_now t). set (cy := transform_T (T_c2g t) (t_rhub t)). set (gr := match o_ground o with Some g => g | None => t_ground t end).
    set (St := fun acc Y => _ : result (list (N * N * N))). generalize (fzero (N := N) pts) as u0.
    assert (K : forall Yl u0, exists v, fold_left St Yl (Ok u0) = Ok v).
    { induction Yl as [|Y Yl IH]; intros u0; [exists u0; reflexivity|]. cbn [fold_left].
      assert (S1 : exists v, St (Ok u0) Y = Ok v).
      { unfold St. cbn [bind]. destruct (o_tang o && _); [|exists u0; reflexivity]. unfold cu_tang1. cbn [String.eqb Ascii.eqb Bool.eqb]. destruct (skewed ch); eexists; reflexivity. }
      destruct S1 as [v ->]. apply IH. }
    intros u0. destruct (K (ylist gr cy (map (transform_T (T_c2g t)) pts)) u0) as [v ->]. cbn [bind]. eexists. reflexivity.
  - assert (ET : tstop 4 t (callP u) = set_gt t (Some [g; p])).
    { unfold u. cbn [callP]. unfold loadP, assign3P, bindP, readP, writeP, lift, mapP. cbn [thenP tstop load_interp get]. rewrite Hf. reflexivity. }
    assert (EO : only i (callP u)) by (apply only_bind; [apply only_read|intros _; apply only_map, only_load]).
    rewrite <- (upd_id h i (OWT t) E) at 1. rewrite (stop_only h i (nth_error_some_lt _ _ _ E) (callP u) 4 t EO), ET. cbn [alone]. rewrite upd_same by (eapply nth_error_some_lt; eauto).
    unfold compute_u. cbn [snd set_gt t_gt]. rewrite EM. unfold cu_root. rewrite ER. cbn [bind]. unfold cu_multi. cbn [String.eqb Ascii.eqb Bool.eqb]. change (t_r (set_gt t (Some [g; p]))) with (t_r t). change (t_gl (set_gt t (Some [g; p]))) with (t_gl t). rewrite Er, EGl. reflexivity.
  - unfold u. cbn [alone alone_after]. rewrite E. rewrite upd_same by (eapply nth_error_some_lt; eauto). unfold update_loading, mbind, mlift, massign. cbn [load_interp]. rewrite Hf. cbn [fst].
    unfold compute_u. cbn [snd set_Ct set_r set_Lambda set_Gr set_gl set_gt t_gt t_ground t_rhub t_R t_U0]. rewrite EM. unfold cu_root. rewrite ER. cbn [bind]. unfold cu_multi. cbn [String.eqb Ascii.eqb Bool.eqb]. rewrite Hr. cbn [t_r t_gl List.length Nat.eqb negb bind].
    rewrite EL. destruct (o_tang o); eexists; reflexivity.
Qed.
(** a new turbine, loaded with one cylinder *)
Definition one_cyl (N : Num) : turbine N := fst (update_loading (fun _ a _ => a) (Some [#1]) (Some [#1]) None (Some (#6)) None (Some (fun c => Ok c))
  (new_turbine (#100) (#0, #0, #0) (#1, #0, #0) (#0, #0, #1) (#10, #0, #0) None None "" false "VC")).
Theorem C143_full_refuted : forall N : Num, ~ C143_full N.
Proof.
  intros N F. set (o := {| o_only_ind := false; o_longi := false; o_tang := true; o_root := false; o_no_wake := false; o_ground := None; o_Model := Some "VC"%string; o_far := #6 |} : opts N).
  destruct (C143_load_torn N [OWT (one_cyl N)] 0 (one_cyl N) (fun _ a _ => a) (Some [#1; #2]) [#1; #2] (#6) (fun c => Ok c) (#1) (#1) (#1) (#2) (#1) (#2) o
    eq_refl eq_refl eq_refl eq_refl eq_refl eq_refl eq_refl eq_refl eq_refl [(#0, #0, #0)]) as ((v1 & A1) & A2 & (v2 & A3)).
  assert (W : forall i t, nth_error [OWT (one_cyl N)] i = Some (OWT t) -> loaded_ok t) by (intros [|[|j]] t' E; try discriminate; injection E as <-; intros _; discriminate).
  match type of A2 with alone (stop _ _ (callP ?u)) ?q = _ => destruct (F _ u q 4%nat W eq_refl eq_refl) as [H|H] end; rewrite A2 in H; [rewrite A1 in H|rewrite A3 in H]; discriminate.
Qed.
(** a call superseded: the hypotheses of C142_superseded met *)
Example C142_case : forall n, run (stop n [OWT (one_cyl RN)] (callP (CLoad 0 (fun _ a _ => a) (Some [#1; #2]) (Some [#1; #2]) None (Some (#6)) None (Some (fun c => Ok c)))))
    (callP (CLoad 0 (fun _ a _ => a) (Some [#3]) (Some [#5]) None (Some (#7)) None (Some (fun c => Ok c)))) =
  run [OWT (one_cyl RN)] (callP (CLoad 0 (fun _ a _ => a) (Some [#3]) (Some [#5]) None (Some (#7)) None (Some (fun c => Ok c)))).
Proof. intros n. apply C142_superseded. split; [reflexivity|]. split; [discriminate|reflexivity]. Qed.
