(** * C144: plane files used by several processes at the same time *)
From Coq Require Import List Bool String Ascii Arith Lia.
From Verif Require Import M_PlaneConc.
Import ListNotations.
Local Open Scope string_scope.
Local Notation len := List.length.

(** ** Specification *)
Section Spec.
  Variable A : Type.
  Variable norm : string -> string.
  (** the call number [snd c] of process [fst c] *)
  Definition call_at (calls : list (list (call A))) (c : tag) : option (call A) :=
    match nth_error calls (fst c) with Some cs => nth_error cs (snd c) | None => None end.
  (** the plane that a save is about: the velocities divided when a division is asked for *)
  Definition plane (div : option (A -> A)) (x y u v : A) : A * A * A * A :=
    (x, y, match div with Some d => d u | None => u end, match div with Some d => d v | None => v end).
  (** the names of the four files *)
  Definition name (k : nat) (base : string) : string := norm base ++ nth k ["x.npy"; "y.npy"; "u.npy"; "v.npy"] "".
  (** the steps of call [c] that were executed *)
  Definition own (tr : list (event A)) (c : tag) : list (op A) :=
    map snd (filter (fun e => same (fst e) c) tr).
  (** all the steps of [c] were executed: four files opened and written, or read *)
  Definition complete (calls : list (list (call A))) (tr : list (event A)) (c : tag) : Prop :=
    exists k, call_at calls c = Some k /\ len (own tr c) = match k with Save _ _ _ _ _ _ => 8 | Load _ => 4 end.
  (** everything [c] did happened before everything [d] did *)
  Definition before (tr : list (event A)) (c d : tag) : Prop :=
    forall i j e e', nth_error tr i = Some e -> nth_error tr j = Some e' -> fst e = c -> fst e' = d -> (i < j)%nat.
  (** [c] saves under a name that normalises like [base] *)
  Definition saves (calls : list (list (call A))) (c : tag) (base : string) : Prop :=
    exists div x y u v b, call_at calls c = Some (Save div x y u v b) /\ norm b = norm base.
  (** the disk holds a plane under [base] *)
  Definition holds (f : disk A) (base : string) (p : A * A * A * A) : Prop :=
    let '(x, y, u, v) := p in
    f (norm base ++ "x.npy") = Full x /\ f (norm base ++ "y.npy") = Full y /\
    f (norm base ++ "u.npy") = Full u /\ f (norm base ++ "v.npy") = Full v.
End Spec.

(** ** Names *)
Lemma app_len s t : String.length (s ++ t) = (String.length s + String.length t)%nat.
Proof. induction s; cbn; auto. Qed.
Lemma app_inj s : forall s' t t', s ++ t = s' ++ t' -> String.length t = String.length t' -> s = s' /\ t = t'.
Proof.
  induction s as [|c s IH]; intros [|c' s'] t t' E L; cbn in E.
  - auto.
  - exfalso. apply (f_equal String.length) in E. cbn in E. rewrite app_len in E. lia.
  - exfalso. apply (f_equal String.length) in E. cbn in E. rewrite app_len in E. lia.
  - injection E as -> E. destruct (IH _ _ _ E L) as [-> ->]. auto.
Qed.
Lemma file_inj norm j k b b' : (j < 4)%nat -> (k < 4)%nat -> file norm j b = file norm k b' -> norm b = norm b' /\ j = k.
Proof.
  intros Hj Hk E. unfold file in E. apply app_inj in E.
  - destruct E as [E1 E2]. split; auto.
    destruct j as [|[|[|[|]]]]; destruct k as [|[|[|[|]]]]; try lia; try reflexivity; discriminate E2.
  - destruct j as [|[|[|[|]]]]; destruct k as [|[|[|[|]]]]; try lia; reflexivity.
Qed.

Lemma name_file norm k b : (k < 4)%nat -> name norm k b = file norm k b.
Proof. intros H. unfold name, file. destruct k as [|[|[|[|]]]]; [reflexivity..|lia]. Qed.
Lemma plane_arrays A div (x y u v : A) : plane A div x y u v = arrays A div x y u v.
Proof. destruct div; reflexivity. Qed.

Local Open Scope list_scope.
Section Props.
  Variable A : Type.
  Variable norm : string -> string.
  Notation steps := (steps A norm).
  Notation event := (event A).

  Lemma same_eq t c : same t c = true <-> t = c.
  Proof.
    unfold same. destruct t as [a b], c as [d e]; cbn. rewrite andb_true_iff, !Nat.eqb_eq. split; intros H; [destruct H; congruence|injection H; auto].
  Qed.
  (** ** what a schedule can look like *)
  Lemma put_nth {B} (l : list B) i b j : nth_error (put l i b) j = if Nat.eqb i j then (match nth_error l j with Some _ => Some b | None => None end) else nth_error l j.
  Proof. revert i j; induction l as [|x l IH]; intros [|i] [|j]; cbn; auto. destruct (Nat.eqb i j); reflexivity. Qed.
  Definition of_proc (i : nat) (tr : list event) : list event := filter (fun e => Nat.eqb (fst (fst e)) i) tr.
  Lemma sched_prefix ps tr : schedule A ps tr ->
    (forall i l, nth_error ps i = Some l -> Forall (fun e => fst (fst e) = i) l) ->
    forall i, exists rest, match nth_error ps i with Some l => l = of_proc i tr ++ rest | None => of_proc i tr = [] end.
  Proof.
    induction 1 as [ps|ps i e rest tr H1 H2 IH]; intros T j.
    - destruct (nth_error ps j) as [l|]; [exists l|exists []]; reflexivity.
    - assert (T' : forall k l, nth_error (put ps i rest) k = Some l -> Forall (fun e => fst (fst e) = k) l).
      { intros k l. rewrite (@put_nth (list event)). destruct (Nat.eqb_spec i k) as [<-|NE]; [|apply T].
        rewrite H1. intros K; injection K as <-. specialize (T _ _ H1). inversion T; auto. }
      destruct (IH T' j) as [r K]. rewrite (@put_nth (list event)) in K. exists r.
      assert (Te1 : fst (fst e) = i) by (specialize (T _ _ H1); inversion T; auto).
      assert (F : of_proc j (e :: tr) = if Nat.eqb i j then e :: of_proc j tr else of_proc j tr) by (unfold of_proc; rewrite <- Te1; reflexivity).
      rewrite F. clear F. destruct (Nat.eqb_spec i j) as [Ej|Ej]; [|exact K].
      subst j. rewrite H1 in K |- *. cbn [app]. f_equal. exact K.
  Qed.
  Lemma program_proc p : forall cs k, Forall (fun e => fst (fst e) = p) (program A norm p k cs).
  Proof.
    induction cs as [|c cs IH]; intros k; cbn [program]; [constructor|]. apply Forall_app. split; [|apply IH].
    apply Forall_forall. intros e He. apply in_map_iff in He. destruct He as (o & <- & _). reflexivity.
  Qed.
  Lemma programs_nth : forall calls p i, nth_error (programs A norm p calls) i =
    match nth_error calls i with Some cs => Some (program A norm (p + i) 0 cs) | None => None end.
  Proof.
    induction calls as [|cs calls IH]; intros p [|i]; cbn; auto.
    - rewrite Nat.add_0_r. reflexivity.
    - rewrite IH. destruct (nth_error calls i); auto. do 2 f_equal. lia.
  Qed.
  Lemma filter_none {B} (g : B -> bool) l : Forall (fun x => g x = false) l -> filter g l = [].
  Proof. induction 1 as [|x l H _ IH]; cbn; auto. rewrite H. exact IH. Qed.
  Lemma filter_all {B} (g : B -> bool) l : Forall (fun x => g x = true) l -> filter g l = l.
  Proof. induction 1 as [|x l H _ IH]; cbn; auto. rewrite H, IH. reflexivity. Qed.
  Lemma program_own p : forall cs k j, map snd (filter (fun e => same (fst e) (p, (k + j)%nat)) (program A norm p k cs)) =
    match nth_error cs j with Some c => steps c | None => [] end.
  Proof.
    induction cs as [|c cs IH]; intros k j; cbn [program].
    - destruct j; reflexivity.
    - rewrite filter_app, map_app. destruct j as [|j]; cbn [nth_error].
      + rewrite filter_all.
        * rewrite map_map, map_id. rewrite filter_none; [apply app_nil_r|].
          assert (H : forall cs m, (k < m)%nat -> Forall (fun x => same (fst x) (p, (k + 0)%nat) = false) (program A norm p m cs)).
          { clear. intros cs. induction cs as [|c cs IH]; intros m Hm; cbn [program]; [constructor|]. apply Forall_app. split.
            - apply Forall_forall. intros e He. apply in_map_iff in He. destruct He as (o & <- & _). cbn. unfold same; cbn.
              rewrite Nat.eqb_refl. cbn. apply Nat.eqb_neq. lia.
            - apply IH. lia. }
          apply H. lia.
        * apply Forall_forall. intros e He. apply in_map_iff in He. destruct He as (o & <- & _). cbn. apply same_eq. f_equal. lia.
      + rewrite filter_none.
        * cbn. replace (k + S j)%nat with (S k + j)%nat by lia. apply IH.
        * apply Forall_forall. intros e He. apply in_map_iff in He. destruct He as (o & <- & _). cbn. unfold same; cbn.
          rewrite Nat.eqb_refl. cbn. apply Nat.eqb_neq. lia.
  Qed.
  Lemma filter_filter {B} (g h : B -> bool) l : (forall x, g x = true -> h x = true) -> filter g (filter h l) = filter g l.
  Proof. intros H. induction l as [|x l IH]; cbn; auto. destruct (h x) eqn:E; cbn; rewrite IH; auto. destruct (g x) eqn:G; auto. rewrite (H _ G) in E. discriminate. Qed.
  (** the executed steps of a call are its first ones *)
  Lemma own_prefix calls tr c : schedule A (programs A norm 0 calls) tr ->
    match call_at A calls c with Some k => exists rest, steps k = own A tr c ++ rest | None => own A tr c = [] end.
  Proof.
    intros S. destruct c as [i j]. unfold call_at. cbn [fst snd].
    assert (T : forall i l, nth_error (programs A norm 0 calls) i = Some l -> Forall (fun e => fst (fst e) = i) l).
    { intros i' l. rewrite programs_nth. destruct (nth_error calls i'); [|discriminate]. intros K; injection K as <-. apply program_proc. }
    destruct (sched_prefix _ _ S T i) as [rest H]. rewrite programs_nth in H. cbn [Nat.add] in H.
    assert (O : own A tr (i, j) = map snd (filter (fun e => same (fst e) (i, j)) (of_proc i tr))).
    { unfold own, of_proc. f_equal. symmetry. apply filter_filter. intros [[a b] o] He. apply same_eq in He. injection He as -> ->. apply Nat.eqb_refl. }
    destruct (nth_error calls i) as [cs|].
    - pose proof (program_own i cs 0 j) as P. cbn [Nat.add] in P. rewrite H, filter_app, map_app in P.
      change (map snd (filter (fun e : event => same (fst e) (i, j)) (of_proc i tr)) ++ map snd (filter (fun e : event => same (fst e) (i, j)) rest)
        = match nth_error cs j with Some c => steps c | None => [] end) in P.
      assert (P' : own A tr (i, j) ++ map snd (filter (fun e : event => same (fst e) (i, j)) rest) = match nth_error cs j with Some c => steps c | None => [] end)
        by (rewrite O; exact P). clear P. rename P' into P.
      destruct (nth_error cs j) as [k|].
      + exists (map snd (filter (fun e => same (fst e) (i, j)) rest)). auto.
      + apply app_eq_nil in P. apply P.
    - rewrite O, H. reflexivity.
  Qed.
  Lemma own_complete calls tr c k : schedule A (programs A norm 0 calls) tr -> complete A calls tr c -> call_at A calls c = Some k ->
    own A tr c = steps k.
  Proof.
    intros S (k' & E & L) E'. rewrite E in E'. injection E' as ->. pose proof (own_prefix calls tr c S) as H. rewrite E in H.
    destruct H as [rest H].
    assert (L' : len (steps k) = match k with Save _ _ _ _ _ _ => 8 | Load _ => 4 end) by (destruct k as [[d|] x y u v b|b]; reflexivity).
    rewrite <- L', H, app_length in L. rewrite H. destruct rest; [rewrite app_nil_r; reflexivity|cbn in L; lia].
  Qed.
  Lemma own_in tr c o : In o (own A tr c) <-> In (c, o) tr.
  Proof.
    unfold own. rewrite in_map_iff. split.
    - intros ([t o'] & E & H). apply filter_In in H. destruct H as [H S]. apply same_eq in S. cbn in E, S. subst. exact H.
    - intros H. exists (c, o). split; auto. apply filter_In. split; auto. apply same_eq. reflexivity.
  Qed.

  (** ** the contents of a file *)
  Definition touches (n : string) (o : op A) : Prop := match o with Open m => m = n | Write m _ => m = n | Read _ => False end.
  Lemma state_untouched n tr f : Forall (fun e : event => ~ touches n (snd e)) tr -> state A f tr n = f n.
  Proof.
    intros H. revert f. induction H as [|[t o] tr H _ IH]; intros f; cbn; auto. unfold state in IH. rewrite IH. cbn in H.
    destruct o; cbn in *; auto; destruct (String.eqb_spec n n0); auto; subst; contradiction.
  Qed.
  Lemma state_app f t1 t2 : state A f (t1 ++ t2) = state A (state A f t1) t2.
  Proof. apply fold_left_app. Qed.
  Lemma state_last f t1 t a t2 n : Forall (fun e : event => ~ touches n (snd e)) t2 -> state A f (t1 ++ (t, Write n a) :: t2) n = Full a.
  Proof.
    intros H. rewrite state_app. change (state A (state A f t1) ((t, Write n a) :: t2)) with (state A (after A (state A f t1) (Write n a)) t2).
    rewrite state_untouched by exact H. cbn. rewrite String.eqb_refl. reflexivity.
  Qed.
  Lemma state_origin n a tr : forall f, state A f tr n = Full a -> f n = Full a \/ exists t, In (t, Write n a) tr.
  Proof.
    induction tr as [|[t o] tr IH]; intros f H; [auto|]. change (state A (after A f o) tr n = Full a) in H.
    destruct (IH _ H) as [K|[t' K]]; [|right; exists t'; cbn; auto]. destruct o; cbn in K; auto.
    - destruct (String.eqb_spec n n0); [discriminate|auto].
    - destruct (String.eqb_spec n n0); [subst; injection K as ->; right; exists t; cbn; auto|auto].
  Qed.
  (** each read finds the state of that moment *)
  Lemma reads_spec c : forall tr f ns, own A tr c = map Read ns -> len (reads A f tr c) = len ns /\
    forall k n, nth_error ns k = Some n -> exists pre post, tr = pre ++ (c, Read n) :: post /\ nth_error (reads A f tr c) k = Some (state A f pre n).
  Proof.
    induction tr as [|[t o] tr IH]; intros f ns H.
    - destruct ns; [|discriminate]. cbn. split; auto. intros [|k] n; discriminate.
    - unfold own in H. cbn [filter fst] in H. cbn [reads]. destruct (same t c) eqn:E.
      + apply same_eq in E. subst t. destruct ns as [|n0 ns]; [discriminate|]. cbn [map snd] in H. injection H as -> H.
        destruct (IH (after A f (Read n0)) ns H) as [L K]. cbn [app]. split; [cbn [List.length]; lia|].
        intros [|k] n Hn; cbn [nth_error] in *.
        * injection Hn as <-. exists [], tr. split; reflexivity.
        * destruct (K _ _ Hn) as (pre & post & -> & R). exists ((c, Read n0) :: pre), post. split; [reflexivity|exact R].
      + destruct (IH (after A f o) ns H) as [L K].
        replace (match o with Read n => [] | _ => [] end ++ reads A (after A f o) tr c)%list with (reads A (after A f o) tr c) by (destruct o; reflexivity).
        split; [exact L|]. intros k n Hn. destruct (K _ _ Hn) as (pre & post & -> & R).
        exists ((t, o) :: pre), post. split; [reflexivity|exact R].
  Qed.
  Definition nth4 (p : A * A * A * A) (k : nat) : A :=
    let '(x, y, u, v) := p in match k with 0 => x | 1 => y | 2 => u | _ => v end.
  Lemma loaded_iff f tr c base p : own A tr c = steps (Load base) ->
    (forall k pre post, (k < 4)%nat -> tr = pre ++ (c, Read (file norm k base)) :: post -> state A f pre (file norm k base) = Full (nth4 p k)) ->
    loaded A f tr c = Some p.
  Proof.
    intros O H. destruct (reads_spec c tr f [file norm 0 base; file norm 1 base; file norm 2 base; file norm 3 base] O) as [L K].
    unfold loaded. destruct (reads A f tr c) as [|a0 [|a1 [|a2 [|a3 [|]]]]]; try discriminate L.
    assert (V : forall k a, (k < 4)%nat -> nth_error [a0; a1; a2; a3] k = Some a -> a = Full (nth4 p k)).
    { intros k a Hk E. destruct (K k (file norm k base)) as (pre & post & E' & R).
      - destruct k as [|[|[|[|]]]]; [reflexivity..|lia].
      - rewrite E in R. injection R as ->. eapply H; eauto. }
    rewrite (V 0 a0), (V 1 a1), (V 2 a2), (V 3 a3); auto; try lia. destruct p as [[[x y] u] v]. reflexivity.
  Qed.
  Lemma loaded_elim f tr c base p k : own A tr c = steps (Load base) -> loaded A f tr c = Some p -> (k < 4)%nat ->
    exists pre post, tr = pre ++ (c, Read (file norm k base)) :: post /\ state A f pre (file norm k base) = Full (nth4 p k).
  Proof.
    intros O H Hk. destruct (reads_spec c tr f [file norm 0 base; file norm 1 base; file norm 2 base; file norm 3 base] O) as [L K].
    unfold loaded in H. destruct (reads A f tr c) as [|a0 [|a1 [|a2 [|a3 [|]]]]]; try discriminate L.
    destruct a0, a1, a2, a3; try discriminate H. injection H as <-.
    destruct (K k (file norm k base)) as (pre & post & E & R).
    - destruct k as [|[|[|[|]]]]; [reflexivity..|lia].
    - exists pre, post. split; auto. destruct k as [|[|[|[|]]]]; cbn in R; try lia; injection R as <-; reflexivity.
  Qed.

  (** ** the steps of a save *)
  Lemma save_touch c n o : In o (steps c) -> touches n o -> exists div x y u v b k, c = Save div x y u v b /\ (k < 4)%nat /\ n = file norm k b.
  Proof.
    destruct c as [div x y u v b|b]; cbn.
    - intros H T. exists div, x, y, u, v, b. unfold arrays in H. destruct div as [d|]; cbn in H;
        repeat (destruct H as [<-|H]; [cbn in T; subst n;
          first [exists 0; split; [reflexivity|split; [lia|reflexivity]]|exists 1; split; [reflexivity|split; [lia|reflexivity]]
                |exists 2; split; [reflexivity|split; [lia|reflexivity]]|exists 3; split; [reflexivity|split; [lia|reflexivity]]]|]); contradiction.
    - intros H T. repeat (destruct H as [<-|H]; [contradiction|]). contradiction.
  Qed.
  Lemma save_write div x y u v b k : (k < 4)%nat -> In (Write (file norm k b) (nth4 (arrays A div x y u v) k)) (steps (Save div x y u v b)).
  Proof. intros H. destruct k as [|[|[|[|]]]]; try lia; destruct div as [d|]; cbn; auto 10. Qed.
  Lemma save_write_inv c k b a : (k < 4)%nat -> In (Write (file norm k b) a) (steps c) ->
    exists div x y u v b', c = Save div x y u v b' /\ norm b' = norm b /\ a = nth4 (arrays A div x y u v) k.
  Proof.
    intros Hk H. destruct c as [div x y u v b'|b']; cbn in H.
    - exists div, x, y, u, v, b'. destruct (arrays A div x y u v) as [[[x' y'] u'] v'] eqn:E.
      repeat (destruct H as [H|H]; [first [discriminate H|injection H as H ->;
        apply file_inj in H; [destruct H as [H <-]; auto|lia|auto]]|]). contradiction.
    - repeat (destruct H as [H|H]; [discriminate H|]). contradiction.
  Qed.
  Lemma save_once div x y u v b k a q1 q2 : (k < 4)%nat -> steps (Save div x y u v b) = (q1 ++ Write (file norm k b) a :: q2)%list ->
    Forall (fun o => ~ touches (file norm k b) o) q2.
  Proof.
    intros Hk E. cbn in E. destruct (arrays A div x y u v) as [[[x' y'] u'] v'].
    assert (N : forall j, (j < 4)%nat -> j <> k -> file norm j b <> file norm k b).
    { intros j Hj NE F. apply file_inj in F; auto. destruct F; auto. }
    do 8 (destruct q1 as [|? q1]; cbn in E; [try discriminate E; try (injection E as E0 _ <-;
      apply file_inj in E0; [|lia|exact Hk]; destruct E0 as [_ <-];
      repeat (apply Forall_cons; [first [exact (N 1 ltac:(lia) ltac:(lia))|exact (N 2 ltac:(lia) ltac:(lia))|exact (N 3 ltac:(lia) ltac:(lia))]|]); apply Forall_nil)|injection E as _ E]).
    destruct q1; discriminate E.
  Qed.

  Lemma nth_mid {B} (l1 : list B) x l2 : nth_error (l1 ++ x :: l2) (len l1) = Some x.
  Proof. induction l1; cbn; auto. Qed.
  Lemma events_of calls tr t o : schedule A (programs A norm 0 calls) tr -> In (t, o) tr -> exists k, call_at A calls t = Some k /\ In o (steps k).
  Proof.
    intros S H. apply own_in in H. pose proof (own_prefix calls tr t S) as P. destruct (call_at A calls t) as [k|].
    - exists k. split; auto. destruct P as [rest ->]. apply in_or_app; auto.
    - rewrite P in H. contradiction.
  Qed.

  (** no array comes from anywhere but a save under the same name (or the disk as it was): whatever the schedule and the crashes *)
  Theorem C144_arrays_of_the_name : forall calls (f : disk A) tr c base p k,
    schedule A (programs A norm 0 calls) tr -> call_at A calls c = Some (Load base) -> complete A calls tr c ->
    loaded A f tr c = Some p -> (k < 4)%nat ->
    f (name norm k base) = Full (nth4 p k) \/
    exists s div x y u v b, call_at A calls s = Some (Save div x y u v b) /\ norm b = norm base /\ nth4 p k = nth4 (plane A div x y u v) k.
  Proof.
    intros calls f tr c base p k S E C L Hk. rewrite name_file by exact Hk. pose proof (own_complete _ _ _ _ S C E) as O.
    destruct (loaded_elim f tr c base p k O L Hk) as (pre & post & T & V). apply state_origin in V. destruct V as [V|[t V]]; [auto|right].
    destruct (events_of calls tr t (Write (file norm k base) (nth4 p k)) S) as (cl & Ec & I).
    { rewrite T. apply in_or_app; auto. }
    destruct (save_write_inv cl k base (nth4 p k) Hk I) as (div & x & y & u & v & b & -> & Eb & Ev).
    exists t, div, x, y, u, v, b. rewrite plane_arrays. auto.
  Qed.

  (** a load that overlaps no save under its name returns the plane of the last save before it, if that save was complete and overlapped
      no other save under the name.  Saves that stopped half way (crashes) before it do not matter, nor does anything under other names *)
  Theorem C144_undisturbed_load_partial : forall calls (f : disk A) tr c base s div x y u v b,
    schedule A (programs A norm 0 calls) tr -> call_at A calls c = Some (Load base) -> complete A calls tr c ->
    call_at A calls s = Some (Save div x y u v b) -> norm b = norm base -> complete A calls tr s -> before A tr s c ->
    (forall s', s' <> s -> saves A norm calls s' base -> before A tr s' s \/ before A tr c s') ->
    loaded A f tr c = Some (plane A div x y u v).
  Proof.
    intros calls f tr c base s div x y u v b Sc Ec Cc Es Eb Cs Bsc Q. rewrite plane_arrays.
    pose proof (own_complete _ _ _ _ Sc Cc Ec) as Oc. pose proof (own_complete _ _ _ _ Sc Cs Es) as Os.
    assert (FE : forall k, file norm k b = file norm k base) by (intros k; unfold file; rewrite Eb; reflexivity).
    apply (loaded_iff f tr c base _ Oc). intros k pre post Hk T.
    set (n := file norm k base) in *. set (a := nth4 (arrays A div x y u v) k).
    (* the write of s is in pre *)
    assert (W : In (s, Write n a) tr).
    { apply own_in. rewrite Os. unfold n, a. rewrite <- FE. apply save_write, Hk. }
    assert (Wp : In (s, Write n a) pre).
    { rewrite T in W. apply in_app_or in W. destruct W as [W|W]; auto. exfalso. cbn in W. destruct W as [W|W].
      - discriminate W.
      - apply in_split in W. destruct W as (l1 & l2 & W). subst post.
        specialize (Bsc (len (pre ++ (c, Read n) :: l1)) (len pre) (s, Write n a) (c, Read n)).
        rewrite app_length in Bsc. cbn [List.length] in Bsc.
        assert (len pre + S (len l1) < len pre)%nat; [|lia]. apply Bsc; auto.
        + rewrite T. replace (len pre + S (len l1))%nat with (len (pre ++ (c, Read n) :: l1)) by (rewrite app_length; reflexivity).
          replace (pre ++ (c, Read n) :: l1 ++ (s, Write n a) :: l2) with ((pre ++ (c, Read n) :: l1) ++ (s, Write n a) :: l2) by (rewrite <- app_assoc; reflexivity).
          apply nth_mid.
        + rewrite T. apply nth_mid. }
    apply in_split in Wp. destruct Wp as (p1 & p2 & Ep). subst pre.
    apply state_last. apply Forall_forall. intros [t o] Ht To. cbn [snd] in To.
    assert (It : In (t, o) tr) by (rewrite T; apply in_or_app; left; apply in_or_app; right; right; exact Ht).
    destruct (events_of calls tr t o Sc It) as (cl & El & Io).
    destruct (save_touch cl n o Io To) as (div' & x' & y' & u' & v' & b' & k' & -> & Hk' & En).
    assert (Eb' : norm b' = norm base /\ k' = k) by (apply (file_inj norm k' k b' base Hk' Hk); symmetry; exact En).
    destruct Eb' as [Eb' ->].
    apply in_split in Ht. destruct Ht as (q1 & q2 & Eq). subst p2.
    assert (D : t = s \/ t <> s) by (destruct t as [t1 t2], s as [s1 s2]; destruct (Nat.eq_dec t1 s1), (Nat.eq_dec t2 s2); subst; auto; right; intros X; injection X; auto).
    destruct D as [->|NE].
    - (* s does not touch the file after writing it *)
      assert (E2 : own A tr s = own A p1 s ++ Write n a :: own A (q1 ++ (s, o) :: q2 ++ (c, Read n) :: post) s).
      { rewrite T. unfold own. rewrite <- app_assoc. cbn [app]. rewrite filter_app, map_app. f_equal. cbn [filter fst].
        replace (same s s) with true by (symmetry; apply same_eq; reflexivity). cbn [map snd]. do 2 f_equal.
        rewrite <- app_assoc. reflexivity. }
      rewrite Os in E2. unfold n in E2. rewrite <- FE in E2. apply (save_once div x y u v b k a _ _ Hk) in E2.
      rewrite Forall_forall in E2. apply (E2 o); [|rewrite FE; exact To].
      apply own_in. apply in_or_app. right. left. reflexivity.
    - set (i := len p1) in *.
      assert (Pi : nth_error tr i = Some (s, Write n a)).
      { rewrite T, <- app_assoc. cbn [app]. apply nth_mid. }
      assert (Pt : nth_error tr (len (p1 ++ (s, Write n a) :: q1)) = Some (t, o)).
      { rewrite T. refine (eq_trans _ (nth_mid (p1 ++ (s, Write n a) :: q1) (t, o) (q2 ++ (c, Read n) :: post))). f_equal.
        repeat (rewrite <- app_assoc; cbn [app]). reflexivity. }
      assert (Pc : nth_error tr (len (p1 ++ (s, Write n a) :: q1 ++ (t, o) :: q2)) = Some (c, Read n)) by (rewrite T; apply nth_mid).
      rewrite app_length in Pt, Pc. cbn [List.length] in Pt, Pc. rewrite app_length in Pc. cbn [List.length] in Pc.
      destruct (Q t NE) as [B|B].
      + exists div', x', y', u', v', b'. auto.
      + specialize (B _ _ _ _ Pt Pi eq_refl eq_refl). unfold i in B. lia.
      + specialize (B _ _ _ _ Pc Pt eq_refl eq_refl). unfold M_PlaneConc.event in *. lia.
  Qed.
  (** a load that ends before any save under its name starts returns what was on the disk *)
  Theorem C144_load_before_saves : forall calls (f : disk A) tr c base p,
    schedule A (programs A norm 0 calls) tr -> call_at A calls c = Some (Load base) -> complete A calls tr c ->
    holds A norm f base p -> (forall s, saves A norm calls s base -> before A tr c s) ->
    loaded A f tr c = Some p.
  Proof.
    intros calls f tr c base p Sc Ec Cc H Q. pose proof (own_complete _ _ _ _ Sc Cc Ec) as Oc.
    apply (loaded_iff f tr c base _ Oc). intros k pre post Hk T. rewrite state_untouched.
    - destruct p as [[[x y] u] v]. destruct H as (H0 & H1 & H2 & H3). destruct k as [|[|[|[|]]]]; auto; lia.
    - apply Forall_forall. intros [t o] Ht To. cbn [snd] in To.
      assert (It : In (t, o) tr) by (rewrite T; apply in_or_app; auto).
      destruct (events_of calls tr t o Sc It) as (cl & El & Io).
      destruct (save_touch cl _ o Io To) as (div' & x' & y' & u' & v' & b' & k' & -> & Hk' & En).
      assert (Eb' : norm b' = norm base /\ k' = k) by (apply (file_inj norm k' k b' base Hk' Hk); symmetry; exact En).
      destruct Eb' as [Eb' ->]. apply in_split in Ht. destruct Ht as (q1 & q2 & ->).
      assert (B : before A tr c t) by (apply Q; exists div', x', y', u', v', b'; auto).
      specialize (B (len (q1 ++ (t, o) :: q2)) (len q1) (c, Read (file norm k base)) (t, o)).
      rewrite app_length in B. cbn [List.length] in B. assert (len q1 + S (len q2) < len q1)%nat; [|lia]. apply B; auto.
      + rewrite T. replace (len q1 + S (len q2))%nat with (len (q1 ++ (t, o) :: q2)) by (rewrite app_length; reflexivity). apply nth_mid.
      + rewrite T, <- app_assoc. cbn [app]. apply nth_mid.
  Qed.

  (** what one would like: a load under a name that has a plane on the disk returns a plane that was saved as a whole *)
  Definition C144_full : Prop := forall calls (f : disk A) tr c base p0,
    schedule A (programs A norm 0 calls) tr -> call_at A calls c = Some (Load base) -> complete A calls tr c -> holds A norm f base p0 ->
    exists p, loaded A f tr c = Some p /\
      (p = p0 \/ exists s div x y u v b, call_at A calls s = Some (Save div x y u v b) /\ norm b = norm base /\ p = plane A div x y u v).
End Props.

(** ** False of the code *)
Definition old_disk {A} (a : A) : disk A := fun _ => Full a.
(** the schedule in which the processes [is] run one step each, in that order *)
Fixpoint pick {A} (ps : list (list (event A))) (is : list nat) : list (event A) :=
  match is with
  | [] => []
  | i :: is => match nth_error ps i with Some (e :: rest) => e :: pick (put ps i rest) is | _ => [] end
  end.
Lemma pick_ok {A} is : forall ps : list (list (event A)), schedule A ps (pick ps is).
Proof.
  induction is as [|i is IH]; intros ps; cbn [pick]; [apply s_stop|].
  destruct (nth_error ps i) as [[|e rest]|] eqn:E; try apply s_stop. eapply s_step; [exact E|apply IH].
Qed.
(** the steps of one call end before those of another: a check *)
Definition beforeb {A} (tr : list (event A)) (c d : tag) : bool :=
  (fix go (l : list (event A)) (seen : bool) : bool :=
    match l with
    | [] => true
    | e :: l => (if same (fst e) c then negb seen else true) && go l (orb seen (same (fst e) d))
    end) tr false.
Lemma beforeb_ok {A} (tr : list (event A)) c d : c <> d -> beforeb tr c d = true -> before A tr c d.
Proof.
  unfold beforeb, before. intros ND.
  set (go := fix go (l : list (event A)) (seen : bool) : bool := match l with [] => true | e :: l => (if same (fst e) c then negb seen else true) && go l (orb seen (same (fst e) d)) end).
  assert (G1 : forall l, go l true = true -> forall i e, nth_error l i = Some e -> fst e = c -> False).
  { induction l as [|e0 l IH]; intros H [|i] e Hi Ei; try discriminate Hi; cbn in H, Hi; apply andb_true_iff in H; destruct H as [H1 H2].
    - injection Hi as <-. rewrite (proj2 (same_eq _ _) Ei) in H1. discriminate H1.
    - exact (IH H2 _ _ Hi Ei). }
  assert (G : forall l, go l false = true -> forall i j e e', nth_error l i = Some e -> nth_error l j = Some e' -> fst e = c -> fst e' = d -> (i < j)%nat).
  { induction l as [|e0 l IH]; intros H i j e e' Hi Hj Ei Ej; [destruct i; discriminate Hi|]. cbn in H. apply andb_true_iff in H. destruct H as [H1 H2].
    destruct j as [|j].
    - exfalso. cbn in Hj. injection Hj as ->. rewrite (proj2 (same_eq (fst e') d) Ej) in H2.
      destruct i as [|i]; cbn in Hi; [injection Hi as ->; congruence|exact (G1 _ H2 _ _ Hi Ei)].
    - destruct i as [|i]; [lia|]. cbn in Hi, Hj. destruct (same (fst e0) d).
      + exfalso. exact (G1 _ H2 _ _ Hi Ei).
      + specialize (IH H2 _ _ _ _ Hi Hj Ei Ej). lia. }
  apply G.
Qed.

Section Refuted.
  Variable A : Type.
  Variable norm : string -> string.
  (** a load during one save raises although a plane is there before and after; another gets new coordinates with old velocities; and two
      processes saving at the same time leave, when both have ended, a plane that is neither: every later load returns it *)
  Theorem C144_refuted : forall a b c : A, a <> b -> b <> c -> a <> c -> ~ C144_full A norm /\
    (exists tr, schedule A (programs A norm 0 [[Save None b b b b "run"]; [Load "run"]]) tr /\
      complete A [[Save None b b b b "run"]; [Load "run"]] tr (1, 0)%nat /\ loaded A (old_disk a) tr (1, 0)%nat = None) /\
    (exists tr, schedule A (programs A norm 0 [[Save None b b b b "run"]; [Load "run"]]) tr /\
      complete A [[Save None b b b b "run"]; [Load "run"]] tr (1, 0)%nat /\ loaded A (old_disk a) tr (1, 0)%nat = Some (b, b, a, a)) /\
    (let calls := [[Save None b b b b "run"]; [Save None c c c c "run"; Load "run"]] in
     exists tr, schedule A (programs A norm 0 calls) tr /\ (forall t, call_at A calls t <> None -> complete A calls tr t) /\
      before A tr (0, 0)%nat (1, 1)%nat /\ before A tr (1, 0)%nat (1, 1)%nat /\
      loaded A (old_disk a) tr (1, 1)%nat = Some (c, b, b, b)).
  Proof.
    intros a b c AB BC AC.
    assert (F : forall j k, (j < 4)%nat -> (k < 4)%nat -> j <> k -> String.eqb (file norm j "run") (file norm k "run") = false).
    { intros j k Hj Hk NE. apply String.eqb_neq. intros E. apply file_inj in E; auto. destruct E; auto. }
    assert (H1 : exists tr, schedule A (programs A norm 0 [[Save None b b b b "run"]; [Load "run"]]) tr /\
      complete A [[Save None b b b b "run"]; [Load "run"]] tr (1, 0)%nat /\ loaded A (old_disk a) tr (1, 0)%nat = None).
    { exists (pick (programs A norm 0 [[Save None b b b b "run"]; [Load "run"]]) [0; 1; 1; 1; 1]%nat). split; [apply pick_ok|split].
      - exists (Load "run"). split; reflexivity.
      - unfold loaded. cbn -[file String.eqb]. rewrite String.eqb_refl. reflexivity. }
    split; [|split; [exact H1|split]].
    - intros H. destruct H1 as (tr & S1 & C1 & L1).
      destruct (H _ (old_disk a) tr (1, 0)%nat "run" (a, a, a, a) S1 eq_refl C1) as (p & L & _); [|congruence].
      unfold holds, old_disk. auto.
    - exists (pick (programs A norm 0 [[Save None b b b b "run"]; [Load "run"]]) [0; 0; 0; 0; 1; 1; 1; 1]%nat). split; [apply pick_ok|split].
      + exists (Load "run"). split; reflexivity.
      + unfold loaded. cbn -[file String.eqb]. rewrite ?String.eqb_refl, ?F by lia. reflexivity.
    - cbv zeta. exists (pick (programs A norm 0 [[Save None b b b b "run"]; [Save None c c c c "run"; Load "run"]])
        [0; 0; 1; 1; 1; 1; 1; 1; 1; 1; 0; 0; 0; 0; 0; 0; 1; 1; 1; 1]%nat). split; [apply pick_ok|split; [|split; [|split]]].
      + intros [[|[|t1]] t2] H.
        * destruct t2 as [|t2]; [|exfalso; apply H; destruct t2; reflexivity]. eexists. split; reflexivity.
        * destruct t2 as [|[|t2]]; [| |exfalso; apply H; destruct t2; reflexivity]; eexists; split; reflexivity.
        * exfalso. apply H. destruct t1; reflexivity.
      + apply beforeb_ok; [discriminate|reflexivity].
      + apply beforeb_ok; [discriminate|reflexivity].
      + unfold loaded. cbn -[file String.eqb]. rewrite ?String.eqb_refl, ?F by lia. reflexivity.
  Qed.
End Refuted.

(** the hypotheses of the positive theorems are met: a save that stops half way, a complete one, then a load, with another process saving
    under another name in between *)
Example C144_applies : forall a b c : nat,
  let calls := [[Save None a a a a "run"]; [Save None b b b b "run"; Load "run"]; [Save None c c c c "other"]] in
  exists tr, schedule nat (programs nat (fun s => s) 0 calls) tr /\
    complete nat calls tr (1, 1)%nat /\ complete nat calls tr (1, 0)%nat /\ before nat tr (1, 0)%nat (1, 1)%nat /\
    (forall s', s' <> (1, 0)%nat -> saves nat (fun s => s) calls s' "run" -> before nat tr s' (1, 0)%nat \/ before nat tr (1, 1)%nat s') /\
    own nat tr (0, 0)%nat <> [] /\ own nat tr (2, 0)%nat <> [].
Proof.
  intros a b c calls. exists (pick (programs nat (fun s => s) 0 calls) [0; 0; 0; 1; 1; 1; 1; 2; 1; 1; 1; 1; 2; 2; 1; 1; 1; 1]%nat).
  split; [apply pick_ok|split; [|split; [|split; [|split; [|split]]]]].
  - eexists; split; reflexivity.
  - eexists; split; reflexivity.
  - apply beforeb_ok; [discriminate|reflexivity].
  - intros s' NE (div & x & y & u & v & b0 & E & En). left. destruct s' as [[|[|[|t]]] k]; cbn in E.
    + destruct k; [|destruct k; discriminate E]. apply beforeb_ok; [discriminate|reflexivity].
    + destruct k as [|[|k]]; [contradiction|discriminate E|destruct k; discriminate E].
    + destruct k; [|destruct k; discriminate E]. injection E as <- <- <- <- <- <-. discriminate En.
    + destruct t; discriminate E.
  - discriminate.
  - discriminate.
Qed.
