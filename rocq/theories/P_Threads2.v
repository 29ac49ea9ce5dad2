(** * Threads, continued: the calls made alone, progress, and what an update made meanwhile does to a query (C140, C141) *)
From Coq Require Import ZArith List Bool String Arith Lia Reals Lra.
From Verif Require Import Num NumR NumX M_Elliptic M_Line M_Ring M_Doublet M_Misc M_Cylinder M_Skewed M_Solver M_Turbine M_Farm M_Threads L_List L_Turbine L_State L_Farm P_Threads.
Import ListNotations.
Local Open Scope num_scope.
Local Notation len := List.length.

(** ** Specification: the objects after a call made alone (M_Turbine.v, M_Farm.v) *)
Section Spec2.
  Context {N : Num}.
  Definition alone_after (h : heap N) (c : call N) : heap N :=
    let on i (g : turbine N -> turbine N) := match nth_error h i with Some (OWT t) => upd h i (OWT (g t)) | _ => h end in
    match c with
    | QU i o pts => on i (fun t => fst (compute_u t o pts))
    | QYawWind _ | QYawErr _ | QDisk _ _ | QLayout _ => h
    | QField f o U0 pts => fst (velocity_field h f o U0 pts)
    | CYaw i yaw => on i (fun t => update_yaw_pos t yaw)
    | CPos i p => on i (fun t => update_position t p)
    | CWind i w => on i (fun t => update_wind t w)
    | CChi i x => on i (fun t => set_chi t x)
    | CLoad i minim r Ct G L n f => on i (fun t => fst (update_loading minim r Ct G L n f t))
    | CLayout f l => fst (layout_set h f l)
    end.
  Definition alone_result (h : heap N) (c : call N) : result (outcome N) :=
    let on i (g : turbine N -> result (outcome N)) := match nth_error h i with Some (OWT t) => g t | _ => Err EAttributeError end in
    match alone h c with
    | Some r => r
    | None => match c with
              | CYaw i _ | CPos i _ | CWind i _ | CChi i _ => on i (fun _ => Ok ONone)
              | CLoad i minim r Ct G L n f => on i (fun t => rmap (fun _ => ONone) (snd (update_loading minim r Ct G L n f t)))
              | CLayout f l => rmap (fun _ => ONone) (snd (layout_set h f l))
              | _ => Err EAttributeError
              end
    end.
End Spec2.

Section One.
  Context {N : Num} (h : heap N) (i : nat).
  (** ** Programs that access one object *)
  Fixpoint only {A} (p : prog N A) : Prop :=
    match p with
    | Ret _ => True
    | Get j _ a k => j = i /\ forall v, only (k v)
    | Put j _ a v k => j = i /\ only k
    end.
  Fixpoint trun {A} (t : turbine N) (p : prog N A) : turbine N * result A :=
    match p with
    | Ret x => (t, x)
    | Get _ _ a k => trun t (k (Ok (get a t)))
    | Put _ _ a v k => trun (put a v t) k
    end.
  Fixpoint tstop {A} (n : nat) (t : turbine N) (p : prog N A) : turbine N :=
    match n, p with
    | O, _ => t
    | _, Ret _ => t
    | S n, Get _ _ a k => tstop n t (k (Ok (get a t)))
    | S n, Put _ _ a v k => tstop n (put a v t) k
    end.
  Hypothesis Hi : (i < len h)%nat.
  Lemma upd_upd {A} (l : list A) j x y : upd (upd l j x) j y = upd l j y.
  Proof. revert j. induction l as [|z l IH]; intros [|j]; cbn [upd]; auto. rewrite IH. reflexivity. Qed.
  Lemma upd_id {A} (l : list A) j x : nth_error l j = Some x -> upd l j x = l.
  Proof. revert j. induction l as [|z l IH]; intros [|j] E; cbn in *; try discriminate; [congruence|]. rewrite IH; auto. Qed.
  Lemma nth_on t : nth_error (upd h i (OWT t)) i = Some (OWT t).
  Proof. apply upd_same. exact Hi. Qed.
  Lemma lookup_on {B} t (a : attr B) : lookup (upd h i (OWT t)) i a = Ok (get a t).
  Proof. unfold lookup. rewrite nth_on. reflexivity. Qed.
  Lemma store_on {B} t (a : attr B) v : store (upd h i (OWT t)) i a v = upd h i (OWT (put a v t)).
  Proof. unfold store. rewrite nth_on. apply upd_upd. Qed.
  Lemma run_only {A} (p : prog N A) : forall t, only p -> run (upd h i (OWT t)) p = (upd h i (OWT (fst (trun t p))), snd (trun t p)).
  Proof.
    induction p as [x|j B a k IH|j B a v k IH]; intros t H; cbn [run trun only] in *; [reflexivity| |]; destruct H as [-> H].
    - rewrite lookup_on. apply IH, H.
    - rewrite store_on. apply IH, H.
  Qed.
  Lemma stop_only {A} (p : prog N A) : forall n t, only p -> stop n (upd h i (OWT t)) p = upd h i (OWT (tstop n t p)).
  Proof.
    induction p as [x|j B a k IH|j B a v k IH]; intros [|n] t H; cbn [stop tstop only] in *; try reflexivity; destruct H as [-> H].
    - rewrite lookup_on. apply IH, H.
    - rewrite store_on. apply IH, H.
  Qed.
  Lemma only_then {A B} (p : prog N A) (k : result A -> prog N B) : only p -> (forall x, only (k x)) -> only (thenP p k).
  Proof. induction p as [x|j B' a c IH|j B' a v c IH]; cbn [only thenP]; intros H K; [apply K| |]; destruct H as [-> H]; split; auto. Qed.
  Lemma only_bind {A B} (p : prog N A) (k : A -> prog N B) : only p -> (forall x, only (k x)) -> only (bindP p k).
  Proof. intros H K. apply only_then; [exact H|]. intros [a|e]; [apply K|exact I]. Qed.
  Lemma only_read {B} (a : attr B) : only (readP i a). Proof. split; [reflexivity|intros; exact I]. Qed.
  Lemma only_write {B} (a : attr B) v : only (writeP i a v). Proof. split; [reflexivity|exact I]. Qed.
  Lemma only_lift {A} (r : result A) : only (lift r). Proof. exact I. Qed.
  Ltac ron := repeat first
      [ match goal with |- only (bindP _ _) => apply only_bind; [|intros ?] | |- only (readP _ _) => apply only_read | |- only (writeP _ _ _) => apply only_write | |- only (lift _) => exact I end
      | match goal with |- only (if ?b then _ else _) => destruct b end
      | match goal with |- only (match ?x with _ => _ end) => destruct x end ].
  Lemma only_yaw yaw : only (yawP i yaw). Proof. unfold yawP. ron. Qed.
  Lemma only_load minim r Ct G L n f : only (loadP i minim r Ct G L n f). Proof. unfold loadP, assign3P. ron. Qed.
  Lemma only_map {A B} (f : A -> B) p : only p -> only (mapP f p). Proof. intros H. apply only_then; [exact H|intros; exact I]. Qed.
  Lemma trun_then {A B} (p : prog N A) (k : result A -> prog N B) : forall t, trun t (thenP p k) = trun (fst (trun t p)) (k (snd (trun t p))).
  Proof. induction p as [x|j B' a c IH|j B' a v c IH]; intros t; cbn [trun thenP]; auto. Qed.
  Lemma trun_bind {A B} (p : prog N A) (k : A -> prog N B) t : trun t (bindP p k) = match snd (trun t p) with Ok x => trun (fst (trun t p)) (k x) | Err e => (fst (trun t p), Err e) end.
  Proof. unfold bindP. rewrite trun_then. destruct (snd (trun t p)); reflexivity. Qed.
  Lemma trun_load minim r Ct G L n f t : trun t (loadP i minim r Ct G L n f) = update_loading minim r Ct G L n f t.
  Proof.
    unfold loadP, update_loading. rewrite trun_bind. cbn [readP trun snd fst get]. rewrite trun_bind.
    assert (E : trun t (match n with None => lift (Ok (#0)) | Some _ => readP i aR end) = (t, Ok (match n with None => #0 | Some _ => t_R t end))) by (destruct n; reflexivity).
    rewrite E. cbn [snd fst]. clear E. rewrite trun_bind. cbn [lift trun snd fst].
    assert (E : load_interp (match n with None => #0 | Some _ => t_R t end) r Ct G n = load_interp (t_R t) r Ct G n) by (destruct n; reflexivity).
    rewrite E. clear E. unfold mbind at 1, mlift at 1. destruct (load_interp (t_R t) r Ct G n) as [[[r' Ct'] G']|e]; [|reflexivity]. rewrite trun_bind.
    assert (E : trun t (match L with Some l => lift (Ok (Some l)) | None => readP i aLambda end) = (t, Ok (match L with Some l => Some l | None => t_Lambda t end))) by (destruct L; reflexivity).
    rewrite E. cbn [snd fst]. clear E. destruct (match L with Some l => Some l | None => t_Lambda t end) as [l|]; [|reflexivity]. rewrite trun_bind. cbn [readP trun snd fst get].
    unfold mbind, mlift, massign, mraise. destruct f as [f|]; [destruct Ct' as [c|]; [destruct (f c)|]; reflexivity|].
    destruct Ct' as [c|]; [|destruct G' as [g|]; [|reflexivity]].
    - rewrite trun_bind, trun_bind. cbn [readP trun snd fst get]. rewrite trun_bind. cbn [lift trun snd fst]. destruct (let* rr := need r' in _); reflexivity.
    - rewrite trun_bind, trun_bind. cbn [readP trun snd fst get]. rewrite trun_bind. cbn [lift trun snd fst]. destruct (let* rr := need r' in _); reflexivity.
  Qed.
  Lemma trun_yaw yaw t : trun t (yawP i yaw) = (update_yaw_pos t yaw, Ok tt).
  Proof. reflexivity. Qed.
End One.

Section Seq.
  Context {N : Num}.
  Lemma run_then {A B} (p : prog N A) (k : result A -> prog N B) : forall h, run h (thenP p k) = run (fst (run h p)) (k (snd (run h p))).
  Proof. induction p as [x|j B' a c IH|j B' a v c IH]; intros h; cbn [run thenP]; auto. Qed.
  Lemma run_map {A B} (f : A -> B) (p : prog N A) h : run h (mapP f p) = (fst (run h p), rmap f (snd (run h p))).
  Proof. unfold mapP. rewrite run_then. reflexivity. Qed.
  Lemma stop_map {A B} (f : A -> B) (p : prog N A) : forall n h, stop n h (mapP f p) = stop n h p.
  Proof. unfold mapP. induction p as [x|j B' a c IH|j B' a v c IH]; intros [|n] h; cbn [stop thenP]; auto. Qed.
  Lemma run_layout : forall f rows (h : heap N), run h (layout_loopP f rows) = layout_loop h f rows.
  Proof.
    induction f as [|i f IH]; intros [|p rows] h; try reflexivity. cbn [layout_loopP layout_loop]. unfold bindP at 1. cbn [readP thenP run]. unfold lookup. destruct (nth_error h i) as [[t|]|] eqn:E; try reflexivity.
    unfold bindP. cbn [writeP thenP run]. unfold store. rewrite E. apply IH.
  Qed.
  (** one access of a method *)
  Lemma run_class {A} (h : heap N) i (p : prog N A) : run h (bindP (readP i aClass) (fun _ => p)) = match nth_error h i with Some (OWT t) => run h p | _ => (h, Err EAttributeError) end.
  Proof. unfold bindP, readP. cbn [thenP run]. unfold lookup. destruct (nth_error h i) as [[t|]|]; reflexivity. Qed.
  Lemma seq_one {A} (h : heap N) i (p : prog N A) (F : A -> outcome N) : only i p ->
    run h (bindP (readP i aClass) (fun _ => mapP F p)) =
      match nth_error h i with Some (OWT t) => (upd h i (OWT (fst (trun t p))), rmap F (snd (trun t p))) | _ => (h, Err EAttributeError) end.
  Proof.
    intros H. rewrite run_class. destruct (nth_error h i) as [[t|]|] eqn:E; try reflexivity. rewrite run_map.
    rewrite <- (upd_id h i (OWT t) E) at 1 2. rewrite (run_only h i (nth_error_some_lt _ _ _ E) p t H). reflexivity.
  Qed.
End Seq.

(** The calls of M_Threads.v, made alone, are the methods of M_Turbine.v and M_Farm.v: same result and, for updates, same objects afterwards. *)
Theorem C140_updates_alone : forall (N : Num) (h : heap N) (c : call N), is_query_call c = false -> run h (callP c) = (alone_after h c, alone_result h c).
Proof.
  intros N h c Q. destruct c as [i o pts|i|i|i nP|f o U0 pts|f|i yaw|i p|i p|i x|i minim r Ct G L n g|f l]; try discriminate Q; cbn [callP]; unfold alone_after, alone_result; cbn [alone].
  - rewrite seq_one by apply only_yaw. destruct (nth_error h i) as [[t|]|]; reflexivity.
  - rewrite seq_one by apply only_write. destruct (nth_error h i) as [[t|]|]; reflexivity.
  - rewrite seq_one by apply only_write. destruct (nth_error h i) as [[t|]|]; reflexivity.
  - rewrite seq_one by apply only_write. destruct (nth_error h i) as [[t|]|]; reflexivity.
  - rewrite seq_one by apply only_load. destruct (nth_error h i) as [[t|]|]; try reflexivity. rewrite trun_load. reflexivity.
  - rewrite run_map. unfold layout_setP, layout_set. destruct (rows3 l) as [rows|]; [|reflexivity]. destruct (Nat.eqb (len rows) (len f)); [|reflexivity]. rewrite run_layout. reflexivity.
Qed.
Theorem C140_queries_alone : forall (N : Num) (h : heap N) (c : call N), is_query_call c = true -> (forall i t, nth_error h i = Some (OWT t) -> loaded_ok t) ->
  snd (run h (callP c)) = alone_result h c /\ hsim h (fst (run h (callP c))).
Proof.
  intros N h c Q WF. unfold alone_result. destruct (alone h c) as [r|] eqn:E; [|unfold is_query_call in Q; destruct c; discriminate].
  destruct (safe_run (fun _ => true) h (callP c) (fun _ x => x = r) (fun _ => false) h) as (c' & O & H).
  - apply okh_start.
  - apply (safe_query (fun _ => true) h (fun i t _ => WF i t)); auto.
  - split; [exact H|]. intros i. specialize (O i eq_refl). destruct (nth_error h i) as [[t|]|], (nth_error (fst (run h (callP c))) i) as [[t'|]|]; auto. destruct O as [O|[O _]]; [right|left]; exact O.
Qed.
(** the hypothesis on the attributes holds of a new turbine and is kept by every call *)
Lemma C140_loaded_new : forall (N : Num) R hub sh ve U0 Ct L nm gr M, loaded_ok (new_turbine (N := N) R hub sh ve U0 Ct L nm gr M).
Proof. intros. intros H. exfalso. apply H. reflexivity. Qed.
Lemma C140_loaded_load : forall (N : Num) minim r Ct G L n f (t : turbine N), loaded_ok t -> loaded_ok (fst (update_loading minim r Ct G L n f t)).
Proof.
  intros N minim r Ct G L n f t W. unfold update_loading. unfold mbind at 1, mlift at 1. destruct (load_interp (t_R t) r Ct G n) as [[[r' Ct'] G']|e]; [|exact W].
  destruct (match L with Some l => Some l | None => t_Lambda t end) as [l|]; [|exact W]. unfold mbind, mlift, massign, mraise.
  destruct f as [f|]; [destruct Ct' as [c|]; [destruct (f c)|]; try exact W; intros _; discriminate|].
  destruct Ct' as [c|]; [|destruct G' as [g|]; [|exact W]].
  - destruct (let* rr := need r' in _); [intros _; discriminate|exact W].
  - destruct (let* rr := need r' in _); [intros _; discriminate|exact W].
Qed.
Lemma loaded_upd {N : Num} (h : heap N) i t : (forall j t, nth_error h j = Some (OWT t) -> loaded_ok t) -> loaded_ok t -> forall j t', nth_error (upd h i (OWT t)) j = Some (OWT t') -> loaded_ok t'.
Proof.
  intros W H j t' E. destruct (Nat.eq_dec i j) as [<- |Nj].
  - assert (L : (i < len h)%nat) by (rewrite <- (upd_length h i (OWT t)); eapply nth_error_some_lt; eauto). rewrite upd_same in E by exact L. injection E as <-. exact H.
  - rewrite upd_other in E by exact Nj. eapply W; eauto.
Qed.
Theorem C140_loaded_kept : forall (N : Num) (h : heap N) (c : call N), (forall i t, nth_error h i = Some (OWT t) -> loaded_ok t) ->
  forall i t, nth_error (fst (run h (callP c))) i = Some (OWT t) -> loaded_ok t.
Proof.
  intros N h c W. destruct (is_query_call c) eqn:Q.
  - destruct (C140_queries_alone N h c Q W) as [_ S]. intros i t E. specialize (S i). rewrite E in S. destruct (nth_error h i) as [[t0|]|] eqn:E0; try contradiction. destruct S as [-> | ->]; exact (W i t0 E0).
  - rewrite (C140_updates_alone N h c Q). cbn [fst].
    destruct c as [i o pts|i|i|i nP|f o U0 pts|f|i yaw|i p|i p|i x|i minim r Ct G L n g|f l]; try discriminate Q; cbn [alone_after];
      try (destruct (nth_error h i) as [[t|]|] eqn:E; try exact W; apply loaded_upd; [exact W|]; try exact (W i t E); apply C140_loaded_load; exact (W i t E)).
    unfold layout_set. destruct (rows3 l) as [rows|]; [|exact W]. destruct (Nat.eqb (len rows) (len f)); [|exact W]. clear Q. revert rows h W. induction f as [|i f IH]; intros [|p rows] h W; try exact W.
    cbn [layout_loop]. destruct (nth_error h i) as [[t|]|] eqn:E; try exact W. apply IH. apply loaded_upd; [exact W|exact (W i t E)].
Qed.

(** ** Every thread can go on until all have returned, and they all return *)
Section Progress.
  Context {N : Num} {A : Type}.
  Definition returned (p : prog N A) : Prop := match p with Ret _ => True | _ => False end.
  Lemma C140_progress : forall (h : heap N) (ps : list (prog N A)), Forall returned ps \/ exists c, istep (h, ps) c.
  Proof.
    intros h ps. destruct (Forall_Exists_dec returned (fun p => match p with Ret _ => left I | _ => right (fun H => H) end) ps) as [H|H]; [left; exact H|right].
    apply Exists_exists in H. destruct H as (p & Hp & NR). apply In_nth_error in Hp. destruct Hp as [j Hj]. destruct p as [x|i B a k|i B a v k]; [exfalso; apply NR; exact I| |].
    - eexists. eapply t_get. exact Hj.
    - eexists. eapply t_put. exact Hj.
  Qed.
  Definition psub (q p : prog N A) : Prop := match p with Ret _ => False | Get i _ a k => exists v, q = k v | Put i _ a v k => q = k end.
  Lemma psub_wf : forall p, Acc psub p.
  Proof. induction p as [x|i B a k IH|i B a v k IH]; constructor; intros y H; [destruct H|destruct H as [v ->]; apply IH|cbn [psub] in H; subst y; exact IH]. Qed.
  Definition lsub (ps' ps : list (prog N A)) : Prop := exists j p p', nth_error ps j = Some p /\ psub p' p /\ ps' = upd ps j p'.
  Lemma lsub_wf : forall ps, Acc lsub ps.
  Proof.
    induction ps as [|p ps IH].
    - constructor. intros y (j & p & p' & E & _). destruct j; discriminate.
    - revert ps IH. induction (psub_wf p) as [p _ IHp]. intros ps H. induction H as [ps H IHps]. constructor. intros y ([|j] & q & q' & E & S & ->); cbn [nth_error upd] in *.
      + injection E as ->. apply IHp; [exact S|constructor; exact H].
      + apply IHps. exists j, q, q'. auto.
  Qed.
  (** no schedule goes on for ever *)
  Lemma C140_terminates : forall (h : heap N) (ps : list (prog N A)), Acc (fun c' c => istep c c') (h, ps).
  Proof.
    intros h ps. revert h. induction (lsub_wf ps) as [ps _ IH]. intros h. constructor. intros [h' ps'] T. apply IH.
    remember (h, ps) as c1 eqn:E1. remember (h', ps') as c2 eqn:E2. destruct T as [h1 ps1 j i B a k E|h1 ps1 j i B a v k E]; injection E1 as -> ->; injection E2 as <- <-; eexists j, _, _; (split; [exact E|]; split; [first [reflexivity|eexists; reflexivity]|reflexivity]).
  Qed.
End Progress.

(** ** One thread going on alone *)
Section Reach.
  Context {N : Num}.
  Inductive reach {A} : heap N -> prog N A -> heap N -> prog N A -> Prop :=
  | r_refl h p : reach h p h p
  | r_get h i B (a : attr B) k h' p' : reach h (k (lookup h i a)) h' p' -> reach h (Get i a k) h' p'
  | r_put h i B (a : attr B) v k h' p' : reach (store h i a v) k h' p' -> reach h (Put i a v k) h' p'.
  Lemma reach_run {A} (p : prog N A) : forall h, reach h p (fst (run h p)) (Ret (snd (run h p))).
  Proof. induction p as [x|i B a k IH|i B a v k IH]; intros h; cbn [run]; constructor; apply IH. Qed.
  Lemma reach_then {A B} (k : result A -> prog N B) : forall h p h' p', reach h p h' p' -> reach h (thenP p k) h' (thenP p' k).
  Proof. induction 1; cbn [thenP]; [apply r_refl|apply r_get; assumption|apply r_put; assumption]. Qed.
  Lemma reach_trans {A} : forall h (p : prog N A) h' p' h'' p'', reach h p h' p' -> reach h' p' h'' p'' -> reach h p h'' p''.
  Proof. induction 1; intros H'; [exact H'|apply r_get; auto|apply r_put; auto]. Qed.
  Lemma isteps_trans {A} (c c' c'' : heap N * list (prog N A)) : isteps c c' -> isteps c' c'' -> isteps c c''.
  Proof. intros H H'. induction H'; [exact H|]. eapply t_more; [apply IHH'; exact H|assumption]. Qed.
  Lemma isteps_one {A} (c c' : heap N * list (prog N A)) : istep c c' -> isteps c c'.
  Proof. intros H. eapply t_more; [apply t_refl|exact H]. Qed.
  Lemma reach_pool {A} : forall h (p : prog N A) h' p', reach h p h' p' -> forall ps j, nth_error ps j = Some p -> isteps (h, ps) (h', upd ps j p').
  Proof.
    induction 1 as [h p|h i B a k h' p' R IH|h i B a v k h' p' R IH]; intros ps j E.
    - rewrite upd_id by exact E. apply t_refl.
    - eapply isteps_trans; [apply isteps_one, (t_get h ps j i B a k E)|]. rewrite <- (upd_upd ps j (k (lookup h i a)) p'). apply IH. apply upd_same. eapply nth_error_some_lt; eauto.
    - eapply isteps_trans; [apply isteps_one, (t_put h ps j i B a v k E)|]. rewrite <- (upd_upd ps j k p'). apply IH. apply upd_same. eapply nth_error_some_lt; eauto.
  Qed.
End Reach.

(** ** An update made meanwhile *)
(** C141.  The full claim: a query made while one update is made by another thread returns what it returns before that update, or what it returns after. *)
Definition C141_full (N : Num) : Prop := forall (h0 : heap N) (q u : call N) h ps r,
  (forall i t, nth_error h0 i = Some (OWT t) -> loaded_ok t) -> is_query_call q = true -> is_query_call u = false ->
  isteps (h0, [thread [q]; thread [u]]) (h, ps) -> nth_error ps 0 = Some (Ret (Ok [r])) ->
  alone h0 q = Some r \/ alone (alone_after h0 u) q = Some r.
(** The free stream is read one component at a time: the wind assigned between two reads, the velocities returned are the induced ones plus the old
    first component and the new second and third. *)
Theorem C141_torn_wind : forall (N : Num) (h0 : heap N) i t o pts ug w, nth_error h0 i = Some (OWT t) -> loaded_ok t -> o_only_ind o = false ->
  snd (compute_u t (with_only_ind true o) pts) = Ok ug ->
  exists h ps, isteps (h0, [thread [QU i o pts]; thread [CWind i w]]) (h, ps) /\ nth_error ps 1 = Some (Ret (Ok [Ok ONone])) /\
    nth_error ps 0 = Some (Ret (Ok [Ok (OVel (map (fun v => vadd v (fst (fst (t_U0 t)), snd (fst w), snd w)) ug))])).
Proof.
  intros N h0 i t o pts ug w E W EO EU.
  set (Sel := Nat.eqb i). assert (WF : forall j t', Sel j = true -> nth_error h0 j = Some (OWT t') -> loaded_ok t').
  { intros j t' Hj E'. apply Nat.eqb_eq in Hj. subst j. rewrite E in E'. injection E' as <-. exact W. }
  assert (HS : Sel i = true) by apply Nat.eqb_refl.
  destruct (safe_run Sel h0 (inducedP i o pts) _ (fun _ => false) h0 (okh_start Sel h0) (safe_induced Sel h0 WF i t HS E (fun _ => false) o pts)) as (c & O & HC & HR). rewrite EU in HR.
  pose proof (reach_run (inducedP i o pts) h0) as R. rewrite HR in R. set (h1 := fst (run h0 (inducedP i o pts))) in *.
  assert (H1 : exists t1, nth_error h1 i = Some (OWT t1) /\ t_U0 t1 = t_U0 t).
  { specialize (O i HS). rewrite E in O. destruct (nth_error h1 i) as [[t1|]|]; try contradiction. exists t1. split; [reflexivity|]. destruct O as [-> |[-> _]]; reflexivity. }
  destruct H1 as (t1 & E1 & EU1).
  set (K1 := fun r : result (list (N * N * N)) => match r with Ok ug => if o_only_ind o then lift (Ok ug) else bindP (readP i aU0) (fun w0 => bindP (readP i aU0) (fun w1 => bindP (readP i aU0) (fun w2 =>
    lift (Ok (map (fun v => vadd v (fst (fst w0), snd (fst w1), snd w2)) ug))))) | Err e => Ret (Err e) end).
  set (K2 := fun r : result (list (N * N * N)) => Ret (N := N) (rmap OVel r)).
  set (K3 := fun r : result (outcome N) => thenP (thread []) (fun rs => Ret (N := N) (rmap (cons r) rs))).
  assert (RA : reach h0 (thread [QU i o pts]) h1 (thenP (thenP (thenP (Ret (Ok ug)) K1) K2) K3)).
  { change (thread [QU i o pts]) with (Get i aClass (fun v => thenP (match v with Ok _ => thenP (thenP (inducedP i o pts) K1) K2 | Err e => Ret (Err e) end) K3)).
    apply r_get. unfold lookup. rewrite E. apply reach_then, reach_then, reach_then. exact R. }
  cbn [thenP] in RA. unfold K1 in RA. rewrite EO in RA.
  pose proof (reach_pool _ _ _ _ RA [thread [QU i o pts]; thread [CWind i w]] 0 eq_refl) as S1. cbn [upd] in S1.
  assert (L1 : lookup h1 i aU0 = Ok (t_U0 t)) by (unfold lookup; rewrite E1; cbn [get]; rewrite EU1; reflexivity).
  assert (L2 : lookup h1 i aClass = Ok tt) by (unfold lookup; rewrite E1; reflexivity).
  set (h2 := store h1 i aU0 w). assert (L3 : lookup h2 i aU0 = Ok w) by (unfold lookup, h2; rewrite (store_same h1 i aU0 w t1 E1); reflexivity).
  assert (R2 : reach h1 (thread [CWind i w]) h2 (Ret (Ok [Ok ONone]))).
  { unfold thread. cbn [callP]. unfold bindP, readP, mapP, writeP. cbn [thenP]. apply r_get. rewrite L2. cbn [thenP]. apply r_put. apply r_refl. }
  set (p1 := thenP (thenP (bindP (readP i aU0) (fun w1 => bindP (readP i aU0) (fun w2 => lift (Ok (map (fun v => vadd v (fst (fst (t_U0 t)), snd (fst w1), snd w2)) ug))))) K2) K3) in *.
  assert (S2 : isteps (h0, [thread [QU i o pts]; thread [CWind i w]]) (h1, [p1; thread [CWind i w]])).
  { set (k0 := fun v : result (N * N * N) => thenP (thenP (match v with Ok w0 => bindP (readP i aU0) (fun w1 => bindP (readP i aU0) (fun w2 =>
      lift (Ok (map (fun v => vadd v (fst (fst w0), snd (fst w1), snd w2)) ug)))) | Err e => Ret (Err e) end) K2) K3).
    eapply t_more; [exact S1|]. pose proof (t_get h1 [Get i aU0 k0; thread [CWind i w]] 0 i _ aU0 k0 eq_refl) as T. rewrite L1 in T. exact T. }
  assert (R3 : reach h2 p1 h2 (Ret (Ok [Ok (OVel (map (fun v => vadd v (fst (fst (t_U0 t)), snd (fst w), snd w)) ug))]))).
  { unfold p1, bindP, readP, lift. cbn [thenP]. apply r_get. rewrite L3. cbn [thenP]. apply r_get. rewrite L3. cbn [thenP]. apply r_refl. }
  pose proof (reach_pool _ _ _ _ R2 [p1; thread [CWind i w]] 1 eq_refl) as S3. pose proof (reach_pool _ _ _ _ R3 [p1; Ret (Ok [Ok ONone])] 0 eq_refl) as S4.
  eexists _, _. split; [eapply isteps_trans; [exact S2|]; eapply isteps_trans; [exact S3|exact S4]|]. split; reflexivity.
Qed.

(** over the reals, once the skew angle is cached: the velocities returned are neither the ones before the new wind nor the ones after *)
Lemma compute_u_wind {N : Num} (t : turbine N) c w o pts : t_chi t = Some c -> snd (compute_u (set_U0 t w) (with_only_ind true o) pts) = snd (compute_u t (with_only_ind true o) pts).
Proof. intros H. destruct t. cbn in H. subst. reflexivity. Qed.
Theorem C141_wind_refuted : forall (h0 : heap RN) i t c o pts ug w, nth_error h0 i = Some (OWT t) -> loaded_ok t -> t_chi t = Some c -> o_only_ind o = false ->
  snd (compute_u t (with_only_ind true o) pts) = Ok ug -> ug <> [] -> fst (fst w) <> fst (fst (t_U0 t)) -> snd (fst w) <> snd (fst (t_U0 t)) ->
  exists h ps r, isteps (h0, [thread [QU i o pts]; thread [CWind i w]]) (h, ps) /\ nth_error ps 0 = Some (Ret (Ok [r])) /\
    alone h0 (QU i o pts) <> Some r /\ alone (alone_after h0 (CWind i w)) (QU i o pts) <> Some r.
Proof.
  intros h0 i t c o pts ug w E W EC EO EU NE X Y. destruct (C141_torn_wind RN h0 i t o pts ug w E W EO EU) as (h & ps & S & _ & R0).
  eexists h, ps, _. split; [exact S|]. split; [exact R0|].
  assert (EF : with_only_ind false o = o) by (destruct o; cbn in *; subst; reflexivity).
  destruct ug as [|[[a b] d] ug]; [congruence|]. destruct w as [[w0 w1] w2]. cbn [fst snd] in *.
  split; cbn [alone alone_after]; rewrite E.
  - rewrite <- EF, only_ind_spec, EU. cbn [bind rmap map]. destruct (t_U0 t) as [[u0 u1] u2]. cbn [fst snd] in *. intros K. injection K as K _ _. apply Y. cbn in K. lra.
  - rewrite upd_same by (eapply nth_error_some_lt; eauto). unfold update_wind. rewrite <- EF, only_ind_spec, (compute_u_wind t c) by exact EC. rewrite EU. cbn [bind rmap map set_U0 t_U0]. destruct (t_U0 t) as [[u0 u1] u2]. cbn [fst snd] in *.
    intros K. injection K as K _. apply X. cbn in K. lra.
Qed.
(** a turbine loaded by update_loading, with its skew angle set *)
Definition wt_ex : turbine RN :=
  set_chi (fst (update_loading (N := RN) (fun _ a _ => a) (Some [0%R]) (Some [0%R]) None (Some 6%R) None (Some (fun c => Ok c))
    (new_turbine (N := RN) 100%R (0, 0, 0)%R (1, 0, 0)%R (0, 0, 1)%R (10, 0, 0)%R None None "" false "VC"))) 0%R.
Lemma C141_full_refuted : ~ C141_full RN.
Proof.
  intros F. set (o := {| o_only_ind := false; o_longi := false; o_tang := false; o_root := false; o_no_wake := false; o_ground := None; o_Model := None; o_far := (6%R : RN) |} : opts RN).
  destruct (C141_wind_refuted [OWT wt_ex] 0 wt_ex 0%R o [(1, 2, 3)%R] [transform (T_c2g wt_ex) (0, 0, 0)%R] (0, 10, 0)%R) as (h & ps & r & S & R0 & A1 & A2).
  - reflexivity.
  - intros _. discriminate.
  - reflexivity.
  - reflexivity.
  - reflexivity.
  - discriminate.
  - cbn. lra.
  - cbn. lra.
  - assert (W : forall i t, nth_error [OWT wt_ex] i = Some (OWT t) -> loaded_ok t) by (intros [|[|j]] t' E; try discriminate; injection E as <-; intros _; discriminate).
    destruct (fun Q1 Q2 => F _ _ _ h ps r W Q1 Q2 S R0) as [H|H]; auto.
Qed.
(** The hypotheses of C140_queries and C140_isolation met: two turbines; one thread queries the first and the farm, another the first, a third moves the second. *)
Example C140_case : forall (h : heap RN) ps x,
  isteps ([OWT wt_ex; OWT wt_ex], map thread [[QU (N := RN) 0 default_opts [(1, 2, 3)%R]; QYawErr (N := RN) 0]; [QU (N := RN) 0 default_opts [(4, 5, 6)%R]]; [CYaw (N := RN) 1 1%R; CWind (N := RN) 1 (0, 1, 0)%R; QField (N := RN) [0; 1] default_opts None [(1, 2, 3)%R]]]%nat) (h, ps) ->
  nth_error ps 0 = Some (Ret x) ->
  x = Ok [rmap OVel (snd (compute_u (N := RN) wt_ex default_opts [(1, 2, 3)%R])); Ok (ONum (yaw_error wt_ex))].
Proof.
  intros h ps x S E. edestruct (C140_isolation RN (Nat.eqb 0)) with (j := 0%nat) as (rs & -> & F); [| |exact S|reflexivity|exact E|].
  - intros i t _ H. destruct i as [|[|i]]; try (injection H as <-; intros _; discriminate). destruct i; discriminate.
  - intros cs q [<- |[<- |[<- |[]]]] Hq Q i Hi; cbn in Hq; repeat (destruct Hq as [<- |Hq]; [try discriminate Q; cbn in Hi; destruct Hi as [<- |[]]; reflexivity|]); contradiction.
  - inversion F as [|q r cs rs' K1 F']; subst. inversion F' as [|q2 r2 cs2 rs2 K2 F2]; subst. inversion F2; subst. 
    specialize (K1 eq_refl (fun i Hi => match Hi with or_introl e => eq_ind 0%nat (fun i => Nat.eqb 0 i = true) eq_refl i e | or_intror f => match f with end end)).
    specialize (K2 eq_refl (fun i Hi => match Hi with or_introl e => eq_ind 0%nat (fun i => Nat.eqb 0 i = true) eq_refl i e | or_intror f => match f with end end)).
    cbn [alone nth_error] in K1, K2. injection K1 as <-. injection K2 as <-. reflexivity.
Qed.
