(** * C146: coordinates given as arrays of any shape *)
From Coq Require Import ZArith List Bool Arith Lia String Reals Lra.
From Verif Require Import Num NumX NumF M_Elliptic M_Cylinder M_Skewed M_Turbine M_Farm M_Shape NumR L_List P_Farm P_Order.
Import ListNotations.
Local Open Scope list_scope.
Local Notation len := List.length.

(** ** Specification *)
(** the multi-index [r] is one of an array of shape [s] (dimensions and indices innermost first) *)
Fixpoint index_of (s r : list nat) : Prop :=
  match s, r with [], [] => True | n :: s, i :: r => (i < n)%nat /\ index_of s r | _, _ => False end.
(** number of elements *)
Fixpoint size (s : list nat) : nat := match s with [] => 1 | n :: s => n * size s end.
(** C order: the innermost index varies fastest *)
Fixpoint c_order (s r : list nat) : nat := match s, r with n :: s, i :: r => i + n * c_order s r | _, _ => 0 end.
(** the array has as many values as its shape says *)
Definition wf {N : Num} (a : arr N) : Prop := len (vals a) = size (shape a).
(** the element of an array at a multi-index *)
Definition at_ {N : Num} (a : arr N) (r : list nat) (v : N) : Prop := index_of (shape a) r /\ nth_error (vals a) (c_order (shape a) r) = Some v.
(** broadcasting: an array of shape [s] can be stretched to the shape [S]: leading dimensions are added, dimensions of size one repeated *)
Inductive fits : list nat -> list nat -> Prop :=
  | fits_nil S : fits [] S
  | fits_dim n s S : fits s S -> fits (n :: s) (n :: S)
  | fits_one n s S : fits s S -> fits (1%nat :: s) (n :: S).
(** the index read in an array of shape [s] for the index [r] of the stretched one *)
Inductive reads : list nat -> list nat -> list nat -> Prop :=
  | reads_nil r : reads [] r []
  | reads_dim n s i r r' : reads s r r' -> reads (n :: s) (i :: r) (i :: r')
  | reads_one s i r r' : reads s r r' -> reads (1%nat :: s) (i :: r) (0%nat :: r').
Definition stretched {N : Num} (a : arr N) (r : list nat) (v : N) : Prop := exists r', reads (shape a) r r' /\ at_ a r' v.
(** the point at index [r] of a query *)
Definition point_at {N : Num} (X Y Z : arr N) (r : list nat) (p : N * N * N) : Prop :=
  let '(x, y, z) := p in stretched X r x /\ stretched Y r y /\ stretched Z r z.
(** the list [L] holds the points of the query of shape [S] *)
Definition lists {N : Num} (S : list nat) (X Y Z : arr N) (L : list (N * N * N)) : Prop :=
  forall p, In p L <-> exists r, index_of S r /\ point_at X Y Z r p.
(** three arrays of shape [S] give at each index the answer that the list query [L] gave for the point there *)
Definition answers {N : Num} (S : list nat) (X Y Z : arr N) (L us : list (N * N * N)) (u : arr N * arr N * arr N) : Prop :=
  let '(ux, uy, uz) := u in
  shape ux = S /\ shape uy = S /\ shape uz = S /\ wf ux /\ wf uy /\ wf uz /\
  forall r j p, index_of S r -> point_at X Y Z r p -> nth_error L j = Some p ->
    exists a b c, nth_error us j = Some (a, b, c) /\ at_ ux r a /\ at_ uy r b /\ at_ uz r c.
(** shapes that numpy handles like non-empty ones *)
Definition plain (S : list nat) : Prop := Forall (fun n => 0 < n) S \/ S = [0].

(** ** Indices *)
Lemma ravel_c s : forall r, ravel s r = c_order s r.
Proof. induction s as [|n s IH]; intros [|i r]; cbn; auto. Qed.
Lemma idxs_in s : forall r, In r (idxs s) <-> index_of s r.
Proof.
  induction s as [|n s IH]; intros r; cbn [idxs index_of].
  - destruct r as [|a r]; cbn; (split; intros H); [exact I|left; reflexivity|destruct H as [H|H]; [discriminate H|contradiction]|contradiction].
  - rewrite in_flat_map. split.
    + intros (r0 & H0 & H). apply in_map_iff in H. destruct H as (i & <- & Hi). apply in_seq in Hi. split; [lia|]. apply IH, H0.
    + destruct r as [|i r]; [contradiction|]. intros [Hi Hr]. exists r. split; [apply IH, Hr|]. apply in_map_iff. exists i. split; auto. apply in_seq. lia.
Qed.
Lemma idxs_len s : len (idxs s) = size s.
Proof.
  induction s as [|n s IH]; cbn [idxs size]; auto. rewrite <- IH. generalize (idxs s). induction l as [|r l IHl]; cbn [flat_map List.length]; [lia|].
  rewrite app_length, map_length, seq_length, IHl. lia.
Qed.
Lemma ravel_lt s : forall r, index_of s r -> ravel s r < size s.
Proof.
  induction s as [|n s IH]; intros [|i r]; cbn; try contradiction; [lia|]. intros [Hi Hr]. specialize (IH _ Hr). nia.
Qed.
Lemma flat_nth {A B} (g : A -> list B) n : forall (l : list A) k i a, (forall x, In x l -> len (g x) = n) -> nth_error l k = Some a -> i < n ->
  nth_error (flat_map g l) (i + n * k) = nth_error (g a) i.
Proof.
  induction l as [|x l IH]; intros [|k] i a HL H Hi; try discriminate; cbn [flat_map].
  - injection H as ->. rewrite nth_error_app1; [f_equal; lia|]. rewrite HL by (left; reflexivity). lia.
  - rewrite nth_error_app2; rewrite HL by (left; reflexivity); [|nia]. replace (i + n * S k - n) with (i + n * k) by nia. apply IH; auto. intros y Hy. apply HL. right. exact Hy.
Qed.
Lemma idxs_nth s : forall r, index_of s r -> nth_error (idxs s) (ravel s r) = Some r.
Proof.
  induction s as [|n s IH]; intros [|i r]; cbn [index_of idxs ravel]; try contradiction; [reflexivity|]. intros [Hi Hr].
  rewrite (flat_nth (fun r => map (fun i => i :: r) (seq 0 n)) n (idxs s) (ravel s r) i r); auto.
  - rewrite (map_nth_error (fun i => i :: r) i (seq 0 n) (d := i)); auto. rewrite nth_error_nth' with (d := 0) by (rewrite seq_length; exact Hi). rewrite seq_nth by exact Hi. reflexivity.
  - intros x _. rewrite map_length, seq_length. reflexivity.
Qed.
Lemma same_shape_eq s : forall s', same_shape s s' = true <-> s = s'.
Proof.
  induction s as [|a s IH]; intros [|b s']; cbn; split; intros H; try discriminate; auto.
  - apply andb_true_iff in H. destruct H as [H1 H2]. apply Nat.eqb_eq in H1. apply IH in H2. congruence.
  - injection H as -> ->. rewrite Nat.eqb_refl. apply IH. reflexivity.
Qed.
(** ** Broadcasting *)
Lemma bshape_nil_r s : bshape s [] = Some s.
Proof. destruct s; reflexivity. Qed.
Lemma bshape_fits s S : fits s S -> bshape S s = Some S.
Proof.
  induction 1 as [S|n s S _ IH|n s S _ IH].
  - apply bshape_nil_r.
  - cbn. rewrite IH, Nat.eqb_refl. reflexivity.
  - cbn. rewrite IH. destruct (Nat.eqb_spec n 1); auto.
Qed.
Lemma fits_refl s : fits s s.
Proof. induction s; constructor; auto. Qed.
Lemma bshape_some s1 : forall s2 s, bshape s1 s2 = Some s -> fits s1 s /\ fits s2 s.
Proof.
  induction s1 as [|a s1 IH]; intros [|b s2] s H; cbn in H.
  - injection H as <-. split; constructor.
  - injection H as <-. split; [constructor|apply fits_refl].
  - injection H as <-. split; [apply fits_refl|constructor].
  - destruct (bshape s1 s2) as [s'|] eqn:E; [|discriminate]. destruct (IH _ _ E) as [F1 F2].
    destruct (Nat.eqb_spec a b) as [<-|NE]; [injection H as <-; split; constructor; auto|].
    destruct (Nat.eqb_spec a 1) as [->|N1]; [injection H as <-; split; [apply fits_one|apply fits_dim]; auto|].
    destruct (Nat.eqb_spec b 1) as [->|N2]; [injection H as <-; split; [apply fits_dim|apply fits_one]; auto|discriminate].
Qed.
Lemma bshape_least s1 : forall s2 S, fits s1 S -> fits s2 S -> exists s, bshape s1 s2 = Some s /\ fits s S.
Proof.
  induction s1 as [|a s1 IH]; intros [|b s2] S F1 F2; cbn.
  - exists []. split; [reflexivity|constructor].
  - exists (b :: s2). auto.
  - exists (a :: s1). auto.
  - inversion F1; subst; inversion F2; subst; match goal with H1 : fits s1 ?S0, H2 : fits s2 ?S0 |- _ => destruct (IH _ _ H1 H2) as (s & -> & Fs) end.
    + rewrite Nat.eqb_refl. eexists; split; [reflexivity|constructor; auto].
    + destruct (Nat.eqb_spec a 1) as [->|]; [eexists; split; [reflexivity|constructor; auto]|]. cbn. eexists; split; [reflexivity|constructor; auto].
    + destruct n as [|[|n]]; cbn; eexists; (split; [reflexivity|constructor; auto]).
    + eexists; split; [reflexivity|]. apply fits_one; auto.
Qed.
Lemma reads_clip s : forall r r', reads s r r' -> index_of s r' -> r' = clip s r.
Proof.
  induction 1 as [r|n s i r r' _ IH|s i r r' _ IH]; intros I; [reflexivity|..]; cbn [index_of clip] in *; destruct I as [I1 I2]; rewrite (IH I2).
  - destruct (Nat.eqb_spec n 1); [|reflexivity]. subst. f_equal. lia.
  - reflexivity.
Qed.
Lemma clip_reads s S : fits s S -> forall r, index_of S r -> reads s r (clip s r) /\ index_of s (clip s r).
Proof.
  induction 1 as [S|n s S _ IH|n s S _ IH]; intros r I.
  - split; [constructor|exact Logic.I].
  - destruct r as [|i r]; [contradiction|]. destruct I as [Hi Hr]. destruct (IH _ Hr) as [A B]. cbn [clip index_of]. destruct (Nat.eqb_spec n 1) as [->|].
    + split; [apply reads_one, A|split; [lia|exact B]].
    + split; [apply reads_dim, A|split; [exact Hi|exact B]].
  - destruct r as [|i r]; [contradiction|]. destruct I as [Hi Hr]. destruct (IH _ Hr) as [A B]. cbn [clip index_of Nat.eqb]. split; [apply reads_one, A|split; [lia|exact B]].
Qed.

Section Arrays.
  Context {N : Num}.
  Lemma stretched_iff (a : arr N) S r v : wf a -> fits (shape a) S -> index_of S r -> (stretched a r v <-> v = bget a r).
  Proof.
    intros W F I. destruct (clip_reads _ _ F r I) as [Rd Ix]. unfold bget. split.
    - intros (r' & H1 & H2 & H3). rewrite <- (reads_clip _ _ _ H1 H2), ravel_c. symmetry. apply nth_error_nth, H3.
    - intros ->. exists (clip (shape a) r). split; [exact Rd|]. split; [exact Ix|]. rewrite <- ravel_c. apply nth_error_nth'. rewrite W. apply ravel_lt, Ix.
  Qed.
  Lemma point_iff (X Y Z : arr N) S r p : wf X -> wf Y -> wf Z -> fits (shape X) S -> fits (shape Y) S -> fits (shape Z) S -> index_of S r ->
    (point_at X Y Z r p <-> p = (bget X r, bget Y r, bget Z r)).
  Proof.
    intros WX WY WZ FX FY FZ I. destruct p as [[x y] z]. unfold point_at. rewrite (stretched_iff X S r x), (stretched_iff Y S r y), (stretched_iff Z S r z) by assumption.
    split; [intros (-> & -> & ->); reflexivity|intros E; injection E; auto].
  Qed.
  Lemma points_lists (X Y Z : arr N) S : wf X -> wf Y -> wf Z -> fits (shape X) S -> fits (shape Y) S -> fits (shape Z) S -> lists S X Y Z (points S X Y Z).
  Proof.
    intros WX WY WZ FX FY FZ p. unfold points. rewrite in_map_iff. split.
    - intros (r & <- & I). apply idxs_in in I. exists r. split; auto. apply (point_iff X Y Z S); auto.
    - intros (r & I & H). exists r. split; [symmetry; apply (point_iff X Y Z S); auto|apply idxs_in, I].
  Qed.
  Lemma lists_same S (X Y Z : arr N) L L' : lists S X Y Z L -> lists S X Y Z L' -> same_points L L'.
  Proof. intros H H' p. rewrite (H p), (H' p). tauto. Qed.
  Lemma points_nth S (X Y Z : arr N) r : index_of S r -> nth_error (points S X Y Z) (ravel S r) = Some (bget X r, bget Y r, bget Z r).
  Proof. intros I. unfold points. exact (map_nth_error (fun r => (bget X r, bget Y r, bget Z r)) _ _ (idxs_nth S r I)). Qed.
  Lemma points_len S (X Y Z : arr N) : len (points S X Y Z) = size S.
  Proof. unfold points. rewrite map_length. apply idxs_len. Qed.
  (** a reshaped answer to the list of points *)
  Lemma answers_of S (X Y Z : arr N) L us us0 : wf X -> wf Y -> wf Z -> fits (shape X) S -> fits (shape Y) S -> fits (shape Z) S ->
    agree L us (points S X Y Z) us0 -> answers S X Y Z L us (arrays3 S us0).
  Proof.
    intros WX WY WZ FX FY FZ (E1 & E2 & H). unfold answers, arrays3. rewrite points_len in E2.
    split; [reflexivity|]. split; [reflexivity|]. split; [reflexivity|]. split; [unfold wf; cbn; rewrite map_length; exact E2|].
    split; [unfold wf; cbn; rewrite map_length; exact E2|]. split; [unfold wf; cbn; rewrite map_length; exact E2|].
    intros r j p I P Hj. apply (point_iff X Y Z S) in P; auto. subst p. pose proof (points_nth S X Y Z r I) as Hp.
    specialize (H _ _ _ Hj Hp). destruct (nth_error us0 (ravel S r)) as [[[a b] c]|] eqn:E.
    - exists a, b, c. split; [exact H|]. rewrite ravel_c in E. unfold at_. cbn [shape vals].
      split; [split; [exact I|exact (map_nth_error (fun u : N * N * N => fst (fst u)) _ _ E)]|].
      split; [split; [exact I|exact (map_nth_error (fun u : N * N * N => snd (fst u)) _ _ E)]|].
      split; [exact I|exact (map_nth_error (fun u : N * N * N => snd u) _ _ E)].
    - apply nth_error_None in E. pose proof (ravel_lt S r I). lia.
  Qed.
  (** the accepted case *)
  Lemma nd_accepted (t : turbine N) o X Y Z : shape X <> [] -> fits (shape Y) (shape X) -> fits (shape Z) (shape X) ->
    compute_u_nd t o X Y Z = (fst (compute_u t o (points (shape X) X Y Z)), let* us := snd (compute_u t o (points (shape X) X Y Z)) in Ok (arrays3 (shape X) us)).
  Proof.
    intros NE FY FZ. unfold compute_u_nd. rewrite (bshape_fits _ _ FY), (bshape_fits _ _ FZ).
    replace (at_least_1d (shape X)) with (shape X) by (destruct (shape X); [congruence|reflexivity]).
    destruct (compute_u t o (points (shape X) X Y Z)) as [t' r]. cbn [fst snd].
    rewrite (proj2 (same_shape_eq (shape X) (shape X)) eq_refl). reflexivity.
  Qed.
  Lemma map2_map_map {A B} (f : B -> B -> B) (g : A -> B) (h : A -> A -> A) (E : forall a a', f (g a) (g a') = g (h a a')) :
    forall l l', map2 f (map g l) (map g l') = map g (map2 h l l').
  Proof. induction l as [|a l IH]; intros [|a' l']; cbn; auto. rewrite E, IH. reflexivity. Qed.
  Lemma add_arrays3 S (u v : list (N * N * N)) : (let '(a, b, c) := arrays3 S u in let '(a', b', c') := arrays3 S v in (add_arr a a', add_arr b b', add_arr c c')) = arrays3 S (fadd u v).
  Proof.
    unfold arrays3, add_arr, fadd. cbn [shape vals].
    rewrite (map2_map_map (nadd N) (fun u : N * N * N => fst (fst u)) vadd) by (intros [[? ?] ?] [[? ?] ?]; reflexivity).
    rewrite (map2_map_map (nadd N) (fun u : N * N * N => snd (fst u)) vadd) by (intros [[? ?] ?] [[? ?] ?]; reflexivity).
    rewrite (map2_map_map (nadd N) (fun u : N * N * N => snd u) vadd) by (intros [[? ?] ?] [[? ?] ?]; reflexivity). reflexivity.
  Qed.
  Lemma farm_nd o X Y Z : shape X <> [] -> fits (shape Y) (shape X) -> fits (shape Z) (shape X) -> forall f h u,
    farm_loop_nd (N := N) h f o X Y Z (arrays3 (shape X) u) =
    (fst (farm_loop h f o (points (shape X) X Y Z) u), let* us := snd (farm_loop h f o (points (shape X) X Y Z) u) in Ok (arrays3 (shape X) us)).
  Proof.
    intros NE FY FZ. induction f as [|i f IH]; intros h u; cbn [farm_loop_nd farm_loop]; [reflexivity|].
    destruct (nth_error h i) as [[t|]|]; [|reflexivity..]. rewrite nd_accepted by assumption.
    destruct (compute_u t (farm_opts o) (points (shape X) X Y Z)) as [t' [us|e]]; cbn [fst snd Num.bind]; [|reflexivity].
    rewrite add_arrays3. apply IH.
  Qed.
  Lemma field_nd h f o U0 X Y Z : shape X <> [] -> fits (shape Y) (shape X) -> fits (shape Z) (shape X) ->
    velocity_field_nd (N := N) h f o U0 X Y Z =
    (fst (velocity_field h f o U0 (points (shape X) X Y Z)), let* us := snd (velocity_field h f o U0 (points (shape X) X Y Z)) in Ok (arrays3 (shape X) us)).
  Proof.
    intros NE FY FZ. unfold velocity_field_nd, velocity_field.
    replace ({| shape := shape X; vals := map (fun _ => nZ N 0) (idxs (shape X)) |}, {| shape := shape X; vals := map (fun _ => nZ N 0) (idxs (shape X)) |}, {| shape := shape X; vals := map (fun _ => nZ N 0) (idxs (shape X)) |})
      with (arrays3 (shape X) (fzero (points (shape X) X Y Z))) by (unfold arrays3, fzero, points; rewrite !map_map; reflexivity).
    rewrite farm_nd by assumption. destruct (farm_loop h f o (points (shape X) X Y Z) (fzero (points (shape X) X Y Z))) as [h' [us|e]]; cbn [fst snd Num.bind]; [|reflexivity].
    f_equal. f_equal. destruct U0 as [[[a b] c]|]; [|reflexivity]. unfold arrays3. cbn [shape vals]. rewrite !map_map.
    f_equal; [f_equal|]; f_equal; apply map_ext; intros [[? ?] ?]; reflexivity.
  Qed.
End Arrays.

(** ** C146 *)
(** X has the full shape, Y and Z fit into it: the answer has that shape, and at every index the velocity of the point there.  In every arithmetic
    in which maxima do not depend on the order: XN_max and FN_max of P_Order.v *)
Theorem C146_accepted : forall (N : Num) (t : turbine N) o (X Y Z : arr N) L, max_law N -> wf X -> wf Y -> wf Z ->
  shape X <> [] -> plain (shape X) -> fits (shape Y) (shape X) -> fits (shape Z) (shape X) -> lists (shape X) X Y Z L ->
  fst (compute_u_nd t o X Y Z) = fst (compute_u t o L) /\
  match snd (compute_u t o L) with
  | Err e => snd (compute_u_nd t o X Y Z) = Err e
  | Ok us => exists u, snd (compute_u_nd t o X Y Z) = Ok u /\ answers (shape X) X Y Z L us u
  end.
Proof.
  intros N t o X Y Z L ML WX WY WZ NE _ FY FZ HL.
  assert (S : same_points L (points (shape X) X Y Z)) by (apply (lists_same (shape X) X Y Z); auto; apply points_lists; auto using fits_refl).
  destruct (C145_any ML t o [] [] None L _ S) as (_ & A & _). rewrite nd_accepted by assumption. split; [reflexivity|].
  unfold same_answers in A. cbn [snd]. destruct (snd (compute_u t o L)) as [us|e], (snd (compute_u t o (points (shape X) X Y Z))) as [us0|e0]; try contradiction; cbn [Num.bind].
  - exists (arrays3 (shape X) us0). split; [reflexivity|]. apply answers_of; auto using fits_refl.
  - congruence.
Qed.
Theorem C146_farm : forall (N : Num) h f o U0 (X Y Z : arr N) L, max_law N -> wf X -> wf Y -> wf Z ->
  shape X <> [] -> plain (shape X) -> fits (shape Y) (shape X) -> fits (shape Z) (shape X) -> lists (shape X) X Y Z L ->
  fst (velocity_field_nd h f o U0 X Y Z) = fst (velocity_field h f o U0 L) /\
  match snd (velocity_field h f o U0 L) with
  | Err e => snd (velocity_field_nd h f o U0 X Y Z) = Err e
  | Ok us => exists u, snd (velocity_field_nd h f o U0 X Y Z) = Ok u /\ answers (shape X) X Y Z L us u
  end.
Proof.
  intros N h f o U0 X Y Z L ML WX WY WZ NE _ FY FZ HL.
  assert (S : same_points L (points (shape X) X Y Z)) by (apply (lists_same (shape X) X Y Z); auto; apply points_lists; auto using fits_refl).
  destruct (field_set ML h f o U0 L) as (h' & [[e He]|[g Hg]]); rewrite field_nd by assumption.
  - rewrite (He _ (same_refl L)), (He _ S). cbn. auto.
  - rewrite (Hg _ (same_refl L)), (Hg _ S). cbn [fst snd Num.bind]. split; [reflexivity|]. eexists. split; [reflexivity|].
    apply answers_of; auto using fits_refl. apply agree_map.
Qed.
(** arrays that cannot be broadcast together are refused, and the turbine is left as it was *)
Theorem C146_refused : forall (N : Num) (t : turbine N) o (X Y Z : arr N),
  (~ exists S, fits (shape X) S /\ fits (shape Y) S /\ fits (shape Z) S) -> compute_u_nd t o X Y Z = (t, Err EValueError).
Proof.
  intros N t o X Y Z H. unfold compute_u_nd. destruct (bshape (shape X) (shape Y)) as [s|] eqn:E1; [|reflexivity].
  destruct (bshape s (shape Z)) as [s'|] eqn:E2; [|reflexivity]. exfalso. apply H. exists s'.
  destruct (bshape_some _ _ _ E1) as [F1 F2]. destruct (bshape_some _ _ _ E2) as [F3 F4].
  assert (TR : forall a b c, fits a b -> fits b c -> fits a c).
  { clear. intros a b c H. revert c. induction H as [S|n s S _ IH|n s S _ IH]; intros c K; [constructor|..]; inversion K; subst; constructor; auto. }
  eauto.
Qed.

(** *** X smaller than the common shape, or three scalars *)
(** [S] is the shape the three arrays are broadcast to *)
Definition broadcast (sx sy sz S : list nat) : Prop :=
  fits sx S /\ fits sy S /\ fits sz S /\ forall S', fits sx S' -> fits sy S' -> fits sz S' -> fits S S'.
Lemma fits_trans : forall a b c, fits a b -> fits b c -> fits a c.
Proof. intros a b c H. revert c. induction H as [S|n s S _ IH|n s S _ IH]; intros c K; [constructor|..]; inversion K; subst; constructor; auto. Qed.
Lemma fits_len a b : fits a b -> len a <= len b.
Proof. induction 1; cbn; lia. Qed.
Lemma fits_antisym a b : fits a b -> fits b a -> a = b.
Proof.
  induction 1 as [S|n s S F IH|n s S F IH]; intros K.
  - inversion K; reflexivity.
  - f_equal. apply IH. inversion K; subst; auto.
  - inversion K; subst; f_equal; auto.
Qed.
Lemma broadcast_iff sx sy sz S : broadcast sx sy sz S <-> match bshape sx sy with Some s => bshape s sz | None => None end = Some S.
Proof.
  split.
  - intros (FX & FY & FZ & M). destruct (bshape_least _ _ _ FX FY) as (s & E1 & Fs). rewrite E1. destruct (bshape_least _ _ _ Fs FZ) as (s' & E2 & Fs').
    rewrite E2. f_equal. apply fits_antisym; [exact Fs'|]. destruct (bshape_some _ _ _ E1), (bshape_some _ _ _ E2). apply M; eauto using fits_trans.
  - destruct (bshape sx sy) as [s|] eqn:E1; [|discriminate]. intros E2. destruct (bshape_some _ _ _ E1) as [A B], (bshape_some _ _ _ E2) as [C D].
    repeat split; eauto using fits_trans. intros S' F1 F2 F3. destruct (bshape_least _ _ _ F1 F2) as (s0 & E0 & Fs). rewrite E1 in E0. injection E0 as <-.
    destruct (bshape_least _ _ _ Fs F3) as (s1 & E3 & Fs1). rewrite E2 in E3. injection E3 as <-. exact Fs1.
Qed.
(** a constant array *)
Definition constant {N : Num} (s : list nat) (v : N) (a : arr N) : Prop := shape a = s /\ wf a /\ forall r, index_of s r -> at_ a r v.
Lemma constant_repeat {N : Num} s (v : N) n : n = size s -> constant s v {| shape := s; vals := repeat v n |}.
Proof.
  intros ->. split; [reflexivity|]. split; [apply repeat_length|]. intros r I. split; [exact I|]. cbn [shape vals]. rewrite <- ravel_c.
  pose proof (ravel_lt s r I) as H. revert H. generalize (ravel s r). induction (size s) as [|k IH]; intros [|j] H; cbn; auto; try lia. apply IH. lia.
Qed.
Lemma map_repeat {A B} (g : A -> B) v n : map g (repeat v n) = repeat (g v) n.
Proof. induction n; cbn; congruence. Qed.
Section Small.
  Context {N : Num}.
  Lemma fold_same {A B} (g : B -> A -> B) u : (forall a, g u a = u) -> forall l, fold_left g l u = u.
  Proof. intros H. induction l as [|a l IH]; cbn; [reflexivity|]. rewrite H. exact IH. Qed.
  (** no contribution is added *)
  Lemma first_add_none (t : turbine N) o gs pts Ylist ground cyl ptc u : first_add t o gs pts = Ok false ->
    cu_root t o (chi_now t) Ylist u = Ok u /\
    match gs with
    | [g] => cu_single t o (match o_Model o with Some m => m | None => t_model t end) (chi_now t) g Ylist u
    | _ => cu_multi t o (match o_Model o with Some m => m | None => t_model t end) (chi_now t) gs ground cyl ptc u
    end = Ok u.
  Proof.
    unfold first_add. set (Model := match o_Model o with Some m => m | None => t_model t end). set (Y := map _ (map _ pts)).
    match goal with |- match _ with true => match _ with Some Gr => if _ then ?r else _ | None => _ end | false => _ end = _ -> _ => set (rest := r) end.
    assert (HR : rest = Ok false -> match gs with [g] => cu_single t o Model (chi_now t) g Ylist u | _ => cu_multi t o Model (chi_now t) gs ground cyl ptc u end = Ok u).
    { assert (HM : (if String.eqb Model "VC" then
            match t_r t, t_gl t with
            | None, _ => Err ETypeError
            | _, None => Err EAttributeError
            | Some r, Some gl =>
                if negb (Nat.eqb (len gs) (len r)) then Err EValueError
                else if match gl with Some gl => negb (Nat.eqb (len gl) (len r)) | None => false end then Err EValueError
                else Ok (o_tang o || match o_longi o, gl with true, Some _ => true | _, _ => false end)%bool
            end
          else Err (ENotImplemented ("Model" ++ Model)%string)) = Ok false -> cu_multi t o Model (chi_now t) gs ground cyl ptc u = Ok u).
      { unfold cu_multi. destruct (String.eqb Model "VC"); [|discriminate]. destruct (t_r t); [|discriminate]. destruct (t_gl t) as [gl|]; [|discriminate].
        destruct (negb _); [discriminate|]. destruct (match gl with Some _ => _ | None => _ end); [discriminate|]. destruct (o_tang o); [discriminate|].
        destruct (o_longi o); [|reflexivity]. destruct gl; [discriminate|reflexivity]. }
      destruct gs as [|g [|g' gs]]; [exact HM| |exact HM]. unfold rest, cu_single. intros H. apply fold_same. intros Y'. cbn [Num.bind].
      destruct (o_tang o && _)%bool; [destruct (cu_tang1 t o Model (chi_now t) g Y); discriminate|]. cbn [Num.bind].
      destruct (gl_active1 t (o_longi o)) as [[gl|]|]; cbn [Num.bind] in *; try discriminate; [|reflexivity].
      destruct (cu_longi1 t Model (chi_now t) gl Y); discriminate. }
    clearbody rest. unfold cu_root. destruct (o_root o); [|intros H; split; [reflexivity|auto]]. destruct (t_Gr t) as [Gr|]; [|intros H; split; [reflexivity|auto]].
    destruct (neqb N Gr (nZ N 0)); [intros H; split; [reflexivity|auto]|].
    destruct (skewed (chi_now t)); [|discriminate]. destruct (svc_root_u Gr _ _ Y); discriminate.
  Qed.
End Small.

(** the call raises, or it returns constant arrays, and then nothing is induced: the velocity is the same at every point of every query *)
Theorem C146_smaller_X : forall (N : Num) (t : turbine N) o (X Y Z : arr N) S, wf X -> wf Y -> wf Z ->
  broadcast (shape X) (shape Y) (shape Z) S -> shape X <> S \/ shape X = [] ->
  (forall L, fst (compute_u_nd t o X Y Z) = fst (compute_u t o L)) /\
  ((exists e, snd (compute_u_nd t o X Y Z) = Err e) \/
   exists ux uy uz a b c s, snd (compute_u_nd t o X Y Z) = Ok (ux, uy, uz) /\ (s = shape X \/ shape X = [] /\ s = [1]) /\
     constant s a ux /\ constant s b uy /\ constant s c uz /\ forall L, snd (compute_u t o L) = Ok (map (fun _ => (a, b, c)) L)).
Proof.
  intros N t o X Y Z S WX WY WZ B HS. apply broadcast_iff in B. unfold compute_u_nd. rewrite B.
  assert (E : same_shape (at_least_1d S) (shape X) = false).
  { destruct (same_shape (at_least_1d S) (shape X)) eqn:E; [|reflexivity]. apply same_shape_eq in E. destruct HS as [H|H].
    - destruct S; cbn in E; [|congruence]. apply broadcast_iff in B. destruct B as (F & _). inversion F. congruence.
    - destruct S; cbn in E; congruence. }
  assert (EF : forall L, fst (compute_u t o L) = fst (compute_u t o (points S X Y Z))) by reflexivity.
  destruct (compute_u t o (points S X Y Z)) as [t' r] eqn:EC. cbn [fst] in EF. rewrite E. cbn [fst snd]. split; [intros L; symmetry; apply EF|]. clear EC EF r.
  destruct (t_gt t) as [gs|] eqn:EG; [|left; eexists; reflexivity]. destruct (first_add t o gs (points S X Y Z)) as [[]|e] eqn:FA; cbn [Num.bind]; try (left; eexists; reflexivity).
  destruct (o_no_wake o) eqn:NW; [left; eexists; reflexivity|]. right.
  set (v := if o_only_ind o then transform (T_c2g t) (nZ N 0, nZ N 0, nZ N 0) else vadd (transform (T_c2g t) (nZ N 0, nZ N 0, nZ N 0)) (t_U0 t)).
  assert (HL : forall L, snd (compute_u t o L) = Ok (map (fun _ => v) L)).
  { intros L. unfold compute_u. cbn [snd]. rewrite EG.
    match goal with |- context [cu_root t o (chi_now t) ?Yl ?u] => match goal with |- context [cu_multi t o ?M (chi_now t) gs ?gr ?cy ?pc] =>
      destruct (first_add_none t o gs (points S X Y Z) Yl gr cy pc u FA) as [A1 A2] end end.
    rewrite A1. cbn [Num.bind]. rewrite A2. cbn [Num.bind]. rewrite NW. unfold fzero, v. destruct (o_only_ind o); rewrite !map_map; reflexivity. }
  set (s := if o_only_ind o then shape X else at_least_1d (shape X)).
  exists {| shape := s; vals := repeat (fst (fst v)) (len (idxs (shape X))) |}, {| shape := s; vals := repeat (snd (fst v)) (len (idxs (shape X))) |},
    {| shape := s; vals := repeat (snd v) (len (idxs (shape X))) |}, (fst (fst v)), (snd (fst v)), (snd v), s.
  assert (HN : len (idxs (shape X)) = size s) by (rewrite idxs_len; unfold s; destruct (o_only_ind o), (shape X); reflexivity).
  split; [|split; [|split; [|split; [|split]]]].
  - unfold s, v. destruct (o_only_ind o); unfold arrays3; rewrite !map_repeat; reflexivity.
  - unfold s. destruct (o_only_ind o); [left; reflexivity|]. destruct (shape X); [right; split; reflexivity|left; reflexivity].
  - apply constant_repeat, HN.
  - apply constant_repeat, HN.
  - apply constant_repeat, HN.
  - intros L. rewrite HL. destruct v as [[a b] c]. reflexivity.
Qed.
(** a turbine that induces something: always an exception *)
Theorem C146_smaller_X_raises : forall (N : Num) (t : turbine N) o (X Y Z : arr N) S L us, wf X -> wf Y -> wf Z ->
  broadcast (shape X) (shape Y) (shape Z) S -> shape X <> S \/ shape X = [] ->
  snd (compute_u t o L) = Ok us -> (exists p p' u u' : N * N * N, u <> u' /\ In (p, u) (combine L us) /\ In (p', u') (combine L us)) ->
  exists e, snd (compute_u_nd t o X Y Z) = Err e.
Proof.
  intros N t o X Y Z S L us WX WY WZ B HS HL (p & p' & u & u' & NE & I & I').
  destruct (C146_smaller_X N t o X Y Z S WX WY WZ B HS) as [_ [H|(ux & uy & uz & a & b & c & s & _ & _ & _ & _ & _ & H)]]; [exact H|exfalso].
  rewrite H in HL. injection HL as <-. apply in_combine_r in I, I'. apply in_map_iff in I, I'. destruct I as (? & <- & _), I' as (? & <- & _). congruence.
Qed.
(** with the default options and a loaded single cylinder it is an exception, ValueError with the default model *)
Theorem C146_smaller_X_default : forall (N : Num) (t : turbine N) g (X Y Z : arr N) S,
  broadcast (shape X) (shape Y) (shape Z) S -> shape X <> S \/ shape X = [] ->
  t_gt t = Some [g] -> neqb N g (nZ N 0) = false -> t_model t = "VC"%string -> snd (compute_u_nd t default_opts X Y Z) = Err EValueError.
Proof.
  intros N t g X Y Z S B HS EG Hg HM. apply broadcast_iff in B. unfold compute_u_nd. rewrite B.
  assert (E : same_shape (at_least_1d S) (shape X) = false).
  { destruct (same_shape (at_least_1d S) (shape X)) eqn:E; [|reflexivity]. apply same_shape_eq in E. destruct HS as [H|H].
    - destruct S; cbn in E; [|congruence]. apply broadcast_iff in B. destruct B as (F & _). inversion F. congruence.
    - destruct S; cbn in E; congruence. }
  destruct (compute_u t default_opts (points S X Y Z)) as [t' r]. rewrite E. cbn [snd]. rewrite EG.
  unfold first_add. cbn [default_opts o_root o_tang o_Model]. rewrite Hg, HM. cbn [negb andb]. unfold cu_tang1.
  destruct (skewed (chi_now t)); reflexivity.
Qed.
(** the property for all coordinates that numpy can broadcast together *)
Definition C146_full : Prop := forall (t : turbine XN) o (X Y Z : arr XN) S L us, wf X -> wf Y -> wf Z ->
  broadcast (shape X) (shape Y) (shape Z) S -> plain S -> lists S X Y Z L -> snd (compute_u t o L) = Ok us ->
  exists u, snd (compute_u_nd t o X Y Z) = Ok u /\ answers S X Y Z L us u.
Definition scalar (x : XN) : arr XN := {| shape := []; vals := [x] |}.
(** the two arrays of a sparse meshgrid: X of shape (1,2), Y of shape (3,1) *)
Definition rowX : arr XN := {| shape := [2; 1]; vals := [Fin 100 : XN; Fin 200] |}.
Definition colY : arr XN := {| shape := [1; 3]; vals := [Fin 0 : XN; Fin 10; Fin 20] |}.
Lemma sparse_broadcast : broadcast [2; 1] [1; 3] [] [2; 3].
Proof. apply broadcast_iff. reflexivity. Qed.
(** one point given as three numbers, and a sparse meshgrid: both have answers as lists of points and both raise *)
Theorem C146_refuted : ~ C146_full /\
  (forall x y z, exists us, snd (compute_u (ex_turb (0, 0, 0)%R) default_opts [(x, y, z)]) = Ok us /\
     snd (compute_u_nd (ex_turb (0, 0, 0)%R) default_opts (scalar x) (scalar y) (scalar z)) = Err EValueError) /\
  (forall z L, lists [2; 3] rowX colY (scalar z) L -> exists us, snd (compute_u (ex_turb (0, 0, 0)%R) default_opts L) = Ok us /\
     snd (compute_u_nd (ex_turb (0, 0, 0)%R) default_opts rowX colY (scalar z)) = Err EValueError).
Proof.
  assert (H3 : neqb XN (Fin (-3)) (nZ XN 0) = false).
  { cbn. match goal with |- ?b = false => destruct b eqn:E; [|reflexivity] end. apply Reqb_true in E. lra. }
  assert (B0 : broadcast [] [] [] []) by (apply broadcast_iff; reflexivity).
  assert (HA : forall x y z, exists us, snd (compute_u (ex_turb (0, 0, 0)%R) default_opts [(x, y, z)]) = Ok us /\
     snd (compute_u_nd (ex_turb (0, 0, 0)%R) default_opts (scalar x) (scalar y) (scalar z)) = Err EValueError).
  { intros x y z. destruct (ex_loaded (0,0,0)%R default_opts [(x, y, z)]) as [us E]; auto. exists us. split; [exact E|].
    apply (C146_smaller_X_default XN _ (Fin (-3)) (scalar x) (scalar y) (scalar z) []); auto. }
  split; [|split; [exact HA|]].
  - intros F. destruct (HA (Fin 100) (Fin 0) (Fin 0)) as (us & E1 & E2).
    destruct (F (ex_turb (0, 0, 0)%R) default_opts (scalar (Fin 100)) (scalar (Fin 0)) (scalar (Fin 0)) [] [(Fin 100, Fin 0, Fin 0)] us) as (u & E3 & _); auto; try reflexivity.
    + left. constructor.
    + change [(Fin 100, Fin 0, Fin 0)] with (points (N := XN) [] (scalar (Fin 100)) (scalar (Fin 0)) (scalar (Fin 0))). apply (points_lists (N := XN)); try reflexivity; constructor.
    + rewrite E2 in E3. discriminate E3.
  - intros z L _. destruct (ex_loaded (0,0,0)%R default_opts L) as [us E]; auto. exists us. split; [exact E|].
    apply (C146_smaller_X_default XN _ (Fin (-3)) rowX colY (scalar z) [2; 3]); auto using sparse_broadcast. left. discriminate.
Qed.
(** the hypotheses of [C146_accepted] are met: X of shape (2,3), Y of shape (3,), Z a scalar; in binary64 *)
Example C146_accepted_applies L (x0 x1 x2 x3 x4 x5 y0 y1 y2 z : FN L) (t : turbine (FN L)) o :
  let X := {| shape := [3; 2]; vals := [x0; x1; x2; x3; x4; x5] |} : arr (FN L) in
  let Y := {| shape := [3]; vals := [y0; y1; y2] |} : arr (FN L) in
  let Z := {| shape := []; vals := [z] |} : arr (FN L) in
  let pts := [(x0, y0, z); (x1, y1, z); (x2, y2, z); (x3, y0, z); (x4, y1, z); (x5, y2, z)] in
  lists [3; 2] X Y Z pts /\ forall us, snd (compute_u t o pts) = Ok us ->
  exists u, snd (compute_u_nd t o X Y Z) = Ok u /\ answers [3; 2] X Y Z pts us u.
Proof.
  intros X Y Z pts. assert (FY : fits [3] [3; 2]) by (repeat constructor). assert (FZ : fits [] [3; 2]) by constructor.
  assert (HL : lists [3; 2] X Y Z pts) by (apply (points_lists (N := FN L) X Y Z [3; 2]); auto using fits_refl; reflexivity). split; [exact HL|].
  intros us E. assert (PL : plain (shape X)) by (left; repeat constructor). assert (NE : shape X <> []) by discriminate.
  destruct (C146_accepted (FN L) t o X Y Z pts (FN_max L) eq_refl eq_refl eq_refl NE PL FY FZ HL) as [_ H]. rewrite E in H. exact H.
Qed.
(** shapes (2,) and (3,) cannot be broadcast together *)
Example C146_refused_applies : ~ exists S, fits [2] S /\ fits [3] S /\ fits [] S.
Proof. intros (S & A & B & _). inversion A; subst; inversion B; subst; congruence. Qed.
