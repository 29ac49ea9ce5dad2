(** * C118: the dictionary of simulated farms (wiz/article_blockage/helper_functions.py:202-262) *)
From Coquelicot Require Import Coquelicot.
From Coq Require Import Reals Lra.
From Coq Require Import ZArith QArith Qround Qabs String Ascii List Bool Lia Lqa Sorting.Sorted.
From Coq Require Import DecimalString.
From Verif Require Import Num NumX M_Turbine M_Tictoc M_Keys P_IO P_Keys P_Nearest.
Import ListNotations.
Local Open Scope string_scope.
Local Open Scope Z_scope.
Local Notation len := List.length.

(** ** Keys *)
Lemma hundredths_nonneg q : (0 <= q)%Q -> 0 <= hundredths q.
Proof.
  intros H. unfold hundredths, Qround_even. set (y := (q * 100)%Q).
  assert (0 <= y)%Q by (unfold y; lra).
  assert (0 <= Qfloor y) by (change 0 with (Qfloor 0); apply Qfloor_resp_le; assumption).
  destruct (Qcompare _ _); try lia. destruct (Z.even _); lia.
Qed.

Lemma f042_nonneg q : (0 <= q)%Q -> f042 q = (dec (hundredths q / 100) ++ String "." (d02 (hundredths q mod 100)))%string.
Proof.
  intros H. unfold f042. assert (K := hundredths_nonneg q H).
  replace (Qlt_b q 0) with false by (symmetry; now apply Qlt_b_false). rewrite Z.abs_eq by assumption. reflexivity.
Qed.

Lemma f042_inj q q' : (0 <= q)%Q -> (0 <= q')%Q -> f042 q = f042 q' -> hundredths q = hundredths q'.
Proof.
  intros H H' E. rewrite !f042_nonneg in E by assumption.
  assert (K := hundredths_nonneg q H). assert (K' := hundredths_nonneg q' H').
  assert (D : 0 <= hundredths q / 100) by (apply Z.div_pos; lia). assert (D' : 0 <= hundredths q' / 100) by (apply Z.div_pos; lia).
  assert (M := Z.mod_pos_bound (hundredths q) 100 ltac:(lia)). assert (M' := Z.mod_pos_bound (hundredths q') 100 ltac:(lia)).
  apply sep_inj in E; try (apply free_dec; [nodigit|assumption]).
  destruct E as [E1 E2].
  assert (Some (hundredths q / 100) = Some (hundredths q' / 100)) by (rewrite <- !read_dec by assumption; congruence).
  assert (Some (hundredths q mod 100) = Some (hundredths q' mod 100)) by (rewrite <- !read_d02 by lia; congruence).
  rewrite (Z.div_mod (hundredths q) 100), (Z.div_mod (hundredths q') 100) by lia. congruence.
Qed.
Lemma f042_ext q q' : (0 <= q)%Q -> (0 <= q')%Q -> hundredths q = hundredths q' -> f042 q = f042 q'.
Proof. intros H H' E. now rewrite !f042_nonneg, E by assumption. Qed.
Lemma f042_free q : (0 <= q)%Q -> free "_" (f042 q).
Proof.
  intros H. rewrite f042_nonneg by assumption. assert (K := hundredths_nonneg q H).
  apply free_app; [apply free_dec; [nodigit|apply Z.div_pos; lia]|]. split; [discriminate|].
  apply free_d02; [nodigit|]. apply Z.mod_pos_bound. lia.
Qed.

Lemma split_free s : Forall (free "_") (split_x s) -> free "_" s.
Proof.
  induction s as [|c s IH]; [intros; exact I|]. cbn [split_x].
  destruct (Ascii.eqb c "x") eqn:E.
  - apply Ascii.eqb_eq in E. subst. intros H. inversion H; subst. split; [discriminate|auto].
  - destruct (split_x s) as [|h t] eqn:ES.
    + destruct s; cbn in ES; [discriminate|]. destruct (Ascii.eqb a "x"); [discriminate|]. destruct (split_x s); discriminate.
    + intros H. inversion H; subst. destruct H2 as [A B]. split; [assumption|]. apply IH. constructor; assumption.
Qed.
Lemma py_ints_free l z : py_ints l = Ok z -> Forall (free "_") l.
Proof.
  revert z; induction l as [|s l IH]; intros z; cbn; [constructor|].
  unfold py_int. destruct (NilZero.uint_of_string s) eqn:E; [|discriminate]. cbn [bind].
  destruct (py_ints l) eqn:F; [|discriminate]. intros _. constructor; [|eauto].
  apply digits_free; [nodigit|]. eapply read_digits. unfold read. rewrite E. reflexivity.
Qed.
(** a layout "3x2", "10x4", ...: numbers separated by x *)
Definition layout (s : string) (shape : list Z) : Prop := py_ints (split_x s) = Ok shape.
Lemma layout_free s shape : layout s shape -> free "_" s.
Proof. intros H. eapply split_free, py_ints_free, H. Qed.

Lemma sim_base_inj s L c h s' L' c' h' sh sh' :
  layout L sh -> layout L' sh' -> (0 <= c)%Q -> (0 <= h)%Q -> (0 <= c')%Q -> (0 <= h')%Q ->
  sim_base s L c h = sim_base s' L' c' h' ->
  s = s' /\ L = L' /\ hundredths c = hundredths c' /\ hundredths h = hundredths h'.
Proof.
  intros HL HL' Hc Hh Hc' Hh' E. apply layout_free in HL, HL'.
  unfold sim_base in E. cbn [append] in E. injection E as E.
  assert (F : forall z, free "_" (sdec z)) by (intros; apply free_sdec; nodigit).
  apply sep_inj in E; auto. destruct E as [E1 E].
  apply sep_inj in E; auto. destruct E as [E2 E]. injection E as E.
  apply sep_inj in E; auto using f042_free. destruct E as [E3 E]. injection E as E.
  repeat split; auto using sdec_inj, f042_inj.
Qed.

(** ** The dictionary *)
(** One simulated farm: spacing, layout, thrust coefficient and hub height in hundredths *)
Record sim (T : Type) := { sm_S : Z; sm_layout : string; sm_CT : Z; sm_HH : Z; sm_farm : adfarm T }.
Arguments sm_S {T}. Arguments sm_layout {T}. Arguments sm_CT {T}. Arguments sm_HH {T}. Arguments sm_farm {T}.
(** The key it is stored under, e.g. "d6_3x2_ct0.80_hh1.50" *)
Definition stored {T} (s : sim T) : string * adfarm T :=
  (sim_base (sm_S s) (sm_layout s) (Qmake (sm_CT s) 100) (Qmake (sm_HH s) 100), sm_farm s).
Definition good_sim {T} (s : sim T) : Prop :=
  0 <= sm_CT s /\ 0 <= sm_HH s /\ exists shape, layout (sm_layout s) shape.
(** The simulation a request (spacing z, layout L, CT, HH) is about *)
Definition about {T} (s : sim T) (z : Z) (L : string) (CT HH : Q) : Prop :=
  sm_S s = z /\ sm_layout s = L /\ sm_CT s = hundredths CT /\ sm_HH s = hundredths HH.

Lemma hundredths_of n : hundredths (Qmake n 100) = n.
Proof.
  unfold hundredths. apply round_even_near.
  assert (E : (Qmake n 100 * 100 - inject_Z n == 0)%Q) by (unfold Qeq; cbn; lia).
  rewrite E. reflexivity.
Qed.

Lemma lookup_none {E} (d : list (string * E)) k : ~ In k (map fst d) -> lookup d k = Err EKeyError.
Proof.
  induction d as [|[k' v] d IH]; cbn; [reflexivity|]. intros H.
  destruct (String.eqb k' k) eqn:Q; [apply String.eqb_eq in Q; tauto|]. tauto.
Qed.
Lemma lookup_some {E} (d : list (string * E)) k v : NoDup (map fst d) -> In (k, v) d -> lookup d k = Ok v.
Proof.
  induction d as [|[k' v'] d IH]; cbn; [tauto|]. intros N [H|H].
  - injection H as -> ->. now rewrite String.eqb_refl.
  - inversion N; subst. destruct (String.eqb k' k) eqn:Q; [|auto].
    apply String.eqb_eq in Q. subst. elim H2. apply in_map_iff. now exists (k, v).
Qed.

Lemma stored_is {T} (s : sim T) z L CT HH shape : good_sim s -> layout L shape -> (0 <= CT)%Q -> (0 <= HH)%Q ->
  fst (stored s) = sim_base z L CT HH <-> about s z L CT HH.
Proof.
  intros (HC & HH0 & sh & Hsh) HL HCT HHH. cbn [stored fst]. split.
  - intros E. eapply sim_base_inj in E; eauto; try (unfold Qle; cbn; lia).
    rewrite !hundredths_of in E. exact E.
  - intros (<- & <- & EC & EH). unfold sim_base. 
    rewrite (f042_ext (Qmake (sm_CT s) 100) CT), (f042_ext (Qmake (sm_HH s) 100) HH); auto;
      try (rewrite hundredths_of; assumption); unfold Qle; cbn; lia.
Qed.

Definition same_case {T} (s s' : sim T) : Prop :=
  sm_S s = sm_S s' /\ sm_layout s = sm_layout s' /\ sm_CT s = sm_CT s' /\ sm_HH s = sm_HH s'.

(** *** A request finds the simulation it is about, and only that one: CT and HH are matched to the hundredth. *)
Theorem C118_lookup : forall (T : Type) (sims : list (sim T)) (z : Z) (L : string) (shape : list Z) (CT HH : Q),
  (forall s, In s sims -> good_sim s) ->
  (forall i j s s', nth_error sims i = Some s -> nth_error sims j = Some s' -> same_case s s' -> i = j) ->
  layout L shape -> (0 <= CT)%Q -> (0 <= HH)%Q ->
  (forall s, In s sims -> about s z L CT HH -> lookup (map stored sims) (sim_base z L CT HH) = Ok (sm_farm s)) /\
  ((forall s, In s sims -> ~ about s z L CT HH) -> lookup (map stored sims) (sim_base z L CT HH) = Err EKeyError).
Proof.
  intros T sims z L shape CT HH G D HL HC HH0. split.
  - intros s Hs A. apply (stored_is s z L CT HH shape (G s Hs) HL HC HH0) in A.
    apply lookup_some.
    + rewrite map_map. clear s Hs A. revert G D. induction sims as [|s sims IH]; intros G D; [constructor|].
      cbn [map]. constructor.
      * intros HI. apply in_map_iff in HI. destruct HI as (s' & E & HI).
        destruct (G s (or_introl eq_refl)) as (G1 & G2 & sh & Gsh).
        destruct (G s' (or_intror HI)) as (G1' & G2' & sh' & Gsh').
        cbn [stored fst] in E. eapply sim_base_inj in E; eauto; try (unfold Qle; cbn; lia).
        rewrite !hundredths_of in E.
        apply In_nth_error in HI. destruct HI as (k & Hk).
        assert (0%nat = S k); [|discriminate].
        apply (D 0%nat (S k) s s'); auto. unfold same_case. intuition congruence.
      * apply IH; [intros; apply G; right; assumption|].
        intros i j a b Ha Hb SC. assert (S i = S j) by (apply (D (S i) (S j) a b); auto). congruence.
    + rewrite <- A. apply in_map_iff. exists s. split; [reflexivity|assumption].
  - intros N. apply lookup_none. rewrite map_map. intros HI. apply in_map_iff in HI. destruct HI as (s & E & HI).
    apply (N s HI). apply (stored_is s z L CT HH shape (G s HI) HL HC HH0). exact E.
Qed.

(** ** getSim, getSimTop, get25, getSimCTs *)

(** Spacing of the simulation asked for: 0 for one turbine; a float is accepted if it is a whole number. *)
Definition spacing_of (S : spacing) (L : string) (z : Z) : Prop :=
  if String.eqb L "1x1" then z = 0
  else match S with SInt n => z = n | SFloat q => (q == inject_Z z)%Q end.
Definition product (l : list Z) : Z := fold_right Z.mul 1 l.

Lemma sim_S_ok S L z : spacing_of S L z -> sim_S S L = Ok z.
Proof.
  unfold spacing_of, sim_S. destruct (String.eqb L "1x1"); [intros ->; reflexivity|].
  destruct S as [n|q]; [intros ->; reflexivity|]. intros E.
  assert (Z.quot (Qnum q) (Zpos (Qden q)) = z) as ->.
  { unfold Qeq in E. cbn in E. rewrite Z.mul_1_r in E. rewrite E. apply Z.quot_mul. lia. }
  replace (Qeq_bool (inject_Z z) q) with true; [reflexivity|]. symmetry. apply Qeq_bool_iff. now rewrite E.
Qed.
Lemma sim_S_inv S L z : sim_S S L = Ok z -> spacing_of S L z.
Proof.
  unfold spacing_of, sim_S. destruct (String.eqb L "1x1"); [congruence|]. destruct S as [n|q]; [congruence|].
  destruct (Qeq_bool _ q) eqn:E; [|discriminate]. intros H; injection H as <-. apply Qeq_bool_iff in E. now rewrite E.
Qed.

(** *** getSim returns the farm stored for the case and its first line, provided the farm has as many thrust coefficients
    as the layout has turbines and has its lines; otherwise it raises. *)
Theorem C118_getSim : forall (T : Type) (d : list (string * adfarm T)) S L shape z CT HH f,
  spacing_of S L z -> layout L shape -> lookup d (sim_base z L CT HH) = Ok f ->
  (product shape = Z.of_nat (len (af_ct f)) ->
   forall mid, nth_error (af_lines f) 0 = Some mid -> (L = "1x1" \/ (2 <= len (af_lines f))%nat) ->
   getSim d S L CT HH = Ok (f, mid)) /\
  (product shape <> Z.of_nat (len (af_ct f)) \/ af_lines f = [] \/ (L <> "1x1" /\ (len (af_lines f) < 2)%nat) ->
   exists e, getSim d S L CT HH = Err e).
Proof.
  intros T d S L shape z CT HH f HS HL HF. unfold getSim. rewrite (sim_S_ok _ _ _ HS). cbn [bind].
  rewrite HL. cbn [bind]. rewrite HF. cbn [bind]. fold (product shape). change (zprod shape) with (product shape).
  unfold line. split.
  - intros -> mid E0 H. rewrite Z.eqb_refl. cbn [negb]. rewrite E0. cbn [bind].
    destruct (String.eqb L "1x1") eqn:E1; [reflexivity|].
    destruct H as [->|H]; [discriminate E1|].
    destruct (nth_error (af_lines f) 1) eqn:E2; [reflexivity|]. apply nth_error_None in E2. lia.
  - intros H. destruct (Z.eqb_spec (product shape) (Z.of_nat (len (af_ct f)))) as [P|P]; cbn [negb]; [|eauto].
    destruct H as [H|[->|[H1 H2]]]; [contradiction|cbn; eauto|].
    destruct (nth_error (af_lines f) 0); [|cbn; eauto]. cbn [bind].
    replace (String.eqb L "1x1") with false by (symmetry; now apply String.eqb_neq).
    destruct (nth_error (af_lines f) 1) eqn:E2; [|cbn; eauto].
    exfalso. assert (1 < len (af_lines f))%nat by (apply nth_error_Some; congruence). lia.
Qed.

(** *** A spacing that is not a whole number raises; for one turbine the spacing does not matter. *)
Theorem C118_spacing : forall (T : Type) (d : list (string * adfarm T)) L CT HH,
  (forall q, L <> "1x1" -> (forall z, ~ (q == inject_Z z)%Q) -> exists e, getSim d (SFloat q) L CT HH = Err e) /\
  (forall S S', getSim d S "1x1" CT HH = getSim d S' "1x1" CT HH) /\
  (forall q z, (q == inject_Z z)%Q -> getSim d (SFloat q) L CT HH = getSim d (SInt z) L CT HH).
Proof.
  intros T d L CT HH. split; [|split].
  - intros q HL Hq. unfold getSim. destruct (sim_S (SFloat q) L) as [z|e] eqn:E; [|cbn; eauto].
    exfalso. apply sim_S_inv in E. unfold spacing_of in E.
    replace (String.eqb L "1x1") with false in E by (symmetry; now apply String.eqb_neq). exact (Hq z E).
  - intros S S'. reflexivity.
  - intros q z E. unfold getSim.
    destruct (sim_S (SInt z) L) as [y|] eqn:F; [|unfold sim_S in F; destruct (String.eqb L "1x1"); discriminate].
    rewrite (sim_S_ok (SFloat q) L y); [reflexivity|]. apply sim_S_inv in F. unfold spacing_of in *.
    destruct (String.eqb L "1x1"); [assumption|now subst].
Qed.

(** *** The top line: the second line of the farm; for one turbine the call always fails. *)
Theorem C118_getSimTop : forall (T : Type) (d : list (string * adfarm T)) S CT HH,
  (forall L shape z f, L <> "1x1" -> spacing_of S L z -> layout L shape -> lookup d (sim_base z L CT HH) = Ok f ->
     forall top, nth_error (af_lines f) 1 = Some top -> getSimTop d S L CT HH = Ok (f, top)) /\
  (exists e, getSimTop d S "1x1" CT HH = Err e) /\
  (forall f, lookup d (sim_base 0 "1x1" CT HH) = Ok f -> getSimTop d S "1x1" CT HH = Err (EUnboundLocal "X_top")).
Proof.
  intros T d S CT HH. split; [|split].
  - intros L shape z f H1 HS HL HF top Ht. unfold getSimTop. rewrite (sim_S_ok _ _ _ HS). cbn [bind].
    rewrite HL. cbn [bind]. rewrite HF. cbn [bind].
    replace (String.eqb L "1x1") with false by (symmetry; now apply String.eqb_neq). unfold line. rewrite Ht. reflexivity.
  - unfold getSimTop. cbn [sim_S String.eqb Ascii.eqb Bool.eqb bind]. 
    destruct (py_ints (split_x "1x1")); [|cbn; eauto]. cbn [bind].
    change (sim_S S "1x1") with (@Ok Z 0). cbn [bind]. destruct (lookup d _); cbn; eauto.
  - intros f HF. unfold getSimTop. change (sim_S S "1x1") with (@Ok Z 0). cbn [bind].
    change (py_ints (split_x "1x1")) with (@Ok (list Z) [1; 1]). cbn [bind]. rewrite HF. reflexivity.
Qed.

(** *** get25: the velocity of the middle line at -2.5, by linear interpolation. *)
Theorem C118_get25 : forall (d : list (string * adfarm (T XN))) S L CT HH f (xs us : list R),
  len xs = len us -> incr xs -> xs <> [] ->
  getSim d S L CT HH = Ok (f, combine (map Fin xs) (map Fin us)) ->
  exists v, get25 d S L CT HH = Ok [Fin v : XN] /\ broken_line xs us (-5/2)%R v.
Proof.
  intros d S L CT HH f xs us HLn HI HX E. unfold get25. rewrite E. cbn [bind snd].
  destruct (np_interp_fin [(-5/2)%R] xs us HLn HI HX) as (vs & E1 & F).
  inversion F as [|x v l l' B F']; subst. inversion F'; subst. exists v. split; [|assumption].
  transitivity (np_interp (N := XN) (map Fin [(-5/2)%R]) (map Fin xs) (map Fin us)); [|exact E1].
  assert (K1 : map fst (combine (map Fin xs) (map Fin us)) = map Fin xs).
  { clear - HLn. revert us HLn. induction xs as [|a xs IH]; intros [|b us] H; try discriminate; [reflexivity|]. cbn. f_equal. apply IH. now injection H. }
  assert (K2 : map snd (combine (map Fin xs) (map Fin us)) = map Fin us).
  { clear - HLn. revert us HLn. induction xs as [|a xs IH]; intros [|b us] H; try discriminate; [reflexivity|]. cbn. f_equal. apply IH. now injection H. }
  f_equal; [|exact K1|exact K2].
  change ([Fin (IZR (-25) / IZR 10)] = [Fin (-5/2)%R]). do 2 f_equal. Lra.lra.
Qed.

(** *** getSimCTs: the coefficients of an AxB layout in B rows of A, and the distinct positions in increasing order,
    in spacings; a spacing given as a float raises, even a whole one that getSim accepts. *)
Lemma qinsert_in x l y : (exists y', In y' (qinsert x l) /\ (y' == y)%Q) <-> (x == y)%Q \/ exists y', In y' l /\ (y' == y)%Q.
Proof.
  induction l as [|a l IH]; cbn [qinsert].
  - split; [intros (y' & [<-|[]] & E); auto|]. intros [E|(y' & [] & _)]. exists x. split; [left; auto|assumption].
  - destruct (Qcompare_spec x a) as [C|C|C].
    + split; [right; assumption|]. intros [E|H]; [|assumption]. exists a. split; [left; auto|]. now rewrite <- C.
    + split.
      * intros (y' & [<-|H] & E); [auto|right; eauto].
      * intros [E|(y' & H & E)]; [exists x; split; [left|]; auto|exists y'; split; [right|]; auto].
    + split.
      * intros (y' & [<-|H] & E); [right; exists a; split; [left|]; auto|].
        destruct (proj1 IH (ex_intro _ y' (conj H E))) as [K|(w & K & Ew)]; [auto|right; exists w; split; [right|]; auto].
      * intros [E|(y' & [<-|H] & E)].
        -- destruct (proj2 IH (or_introl E)) as (w & K & Ew). exists w; split; [right|]; auto.
        -- exists a; split; [left|]; auto.
        -- destruct (proj2 IH (or_intror (ex_intro _ y' (conj H E)))) as (w & K & Ew). exists w; split; [right|]; auto.
Qed.
Lemma qinsert_sorted x l : StronglySorted Qlt l -> StronglySorted Qlt (qinsert x l).
Proof.
  intros S. induction S as [|a l S IH H]; cbn [qinsert]; [repeat constructor|].
  destruct (Qcompare_spec x a) as [C|C|C].
  - constructor; assumption.
  - constructor; [constructor; assumption|]. constructor; [assumption|].
    eapply Forall_impl; [|exact H]. intros w Hw. cbv beta. now apply Qlt_trans with a.
  - constructor; [assumption|]. rewrite Forall_forall. intros w Hw.
    assert (K := proj1 (qinsert_in x l w) (ex_intro _ w (conj Hw (Qeq_refl w)))).
    destruct K as [K|(v & K & E)]; [now rewrite <- K|]. rewrite Forall_forall in H. rewrite <- E. now apply H.
Qed.
Lemma unique_sorted l : StronglySorted Qlt (unique l).
Proof. induction l; cbn; [constructor|now apply qinsert_sorted]. Qed.
Lemma unique_in l y : (exists y', In y' (unique l) /\ (y' == y)%Q) <-> exists y', In y' l /\ (y' == y)%Q.
Proof.
  induction l as [|a l IH]; [reflexivity|]. cbn [unique fold_right]. rewrite qinsert_in. fold (unique l). rewrite IH. split.
  - intros [E|(w & K & E)]; [exists a; split; [left|]; auto|exists w; split; [right|]; auto].
  - intros (w & [<-|K] & E); [auto|right; eauto].
Qed.

Lemma nth_rows {T} n m (l : list T) j i : (j < n)%nat -> (i < m)%nat ->
  exists row, nth_error (rows n m l) j = Some row /\ nth_error row i = nth_error l (j * m + i).
Proof.
  intros Hj Hi. unfold rows. exists (firstn m (skipn (j * m) l)). split.
  - rewrite nth_error_map. replace (nth_error (seq 0 n) j) with (Some j); [reflexivity|].
    symmetry. rewrite nth_error_nth' with (d := 0%nat) by (rewrite seq_length; lia). now rewrite seq_nth by lia.
  - set (k := (j * m)%nat). clearbody k. revert l i Hi. clear Hj. 
    assert (F : forall (l : list T) m i, (i < m)%nat -> nth_error (firstn m l) i = nth_error l i).
    { induction l as [|a l IH]; intros [|m'] [|i] H; cbn; try lia; auto. apply IH. lia. }
    assert (G : forall (l : list T) k i, nth_error (skipn k l) i = nth_error l (k + i)).
    { induction l as [|a l IH]; intros [|k'] i; cbn; auto. now destruct i. }
    intros l i Hi. rewrite F by assumption. apply G.
Qed.

Theorem C118_getSimCTs : forall (d : list (string * adfarm Q)) L A B CT HH,
  layout L [A; B] -> 0 <= A -> 0 <= B ->
  (forall z f, (L = "1x1" -> z = 0) -> (L <> "1x1" -> z <> 0) -> lookup d (sim_base z L CT HH) = Ok f ->
     A * B = Z.of_nat (len (af_ct f)) ->
     exists xs cts, getSimCTs d (SInt z) L CT HH = Ok (xs, cts) /\
       len cts = Z.to_nat B /\
       (forall i j, (i < Z.to_nat A)%nat -> (j < Z.to_nat B)%nat ->
          exists row, nth_error cts j = Some row /\ nth_error row i = nth_error (af_ct f) (j * Z.to_nat A + i)) /\
       (L = "1x1" -> xs = [0%Q]) /\
       (L <> "1x1" -> 0 < z -> StronglySorted Qlt xs) /\
       (L <> "1x1" -> forall x, (exists x', In x' xs /\ (x' == x)%Q) <-> (exists p, In p (af_x f) /\ (p == x * inject_Z z)%Q))) /\
  (forall q, L <> "1x1" -> getSimCTs d (SFloat q) L CT HH = Err EValueError).
Proof.
  intros d L A B CT HH HL HA HB. split.
  - intros z f Hz1 Hz HF HN. unfold getSimCTs.
    replace (sim_S_CTs (SInt z) L) with (@Ok Z z)
      by (unfold sim_S_CTs; destruct (String.eqb_spec L "1x1") as [E|E]; [now rewrite (Hz1 E)|reflexivity]).
    cbn [bind]. rewrite HL. cbn [bind]. rewrite HF. cbn [bind].
    replace (B * A =? Z.of_nat (len (af_ct f))) with true by (symmetry; apply Z.eqb_eq; lia). cbn [negb].
    set (cts := rows _ _ _).
    assert (LC : len cts = Z.to_nat B) by (unfold cts, rows; now rewrite map_length, seq_length).
    assert (RC : forall i j, (i < Z.to_nat A)%nat -> (j < Z.to_nat B)%nat ->
          exists row, nth_error cts j = Some row /\ nth_error row i = nth_error (af_ct f) (j * Z.to_nat A + i))
      by (intros; now apply nth_rows).
    clearbody cts.
    destruct (String.eqb_spec L "1x1") as [E|E].
    + exists [0%Q], cts. repeat split; auto; contradiction.
    + specialize (Hz E). replace (z =? 0) with false by (symmetry; now apply Z.eqb_neq).
      eexists; exists cts. split; [reflexivity|]. split; [assumption|]. split; [assumption|]. split; [contradiction|]. split.
      * intros _ Pz. assert (S := unique_sorted (af_x f)). induction S as [|a l S IH H]; [constructor|]. cbn [map].
        constructor; [assumption|]. rewrite Forall_map. eapply Forall_impl; [|exact H]. intros w Hw. cbv beta.
        unfold Qdiv. apply Qmult_lt_r; [|assumption]. apply Qinv_lt_0_compat. change 0%Q with (inject_Z 0). now rewrite <- Zlt_Qlt.
      * intros _ x.
        assert (NZ : ~ (inject_Z z == 0)%Q) by (unfold Qeq; cbn; lia).
        assert (D : forall w, (w / inject_Z z == x <-> w == x * inject_Z z)%Q).
        { intros w. split; intros K; [rewrite <- K|rewrite K]; field; assumption. }
        rewrite <- (unique_in (af_x f)). split.
        -- intros (x' & HI & E'). apply in_map_iff in HI. destruct HI as (w & <- & HI). exists w. split; [assumption|]. now apply D.
        -- intros (w & HI & E'). exists (w / inject_Z z)%Q. split; [|now apply D]. apply in_map_iff. eauto.
  - intros q E. unfold getSimCTs, sim_S_CTs. replace (String.eqb L "1x1") with false by (symmetry; now apply String.eqb_neq). reflexivity.
Qed.

(** ** A dictionary with three farms meets the hypotheses *)
Definition farm2 : adfarm Q := {| af_x := [0; 6; 12; 0; 6; 12]%Q; af_ct := [Qmake 8 10; Qmake 7 10; Qmake 6 10; Qmake 8 10; Qmake 7 10; Qmake 6 10];
  af_lines := [[(-(3), 1); (0, Qmake 9 10)]; [(-(3), 1); (0, Qmake 8 10)]]%Q |}.
Definition farm1 : adfarm Q := {| af_x := [0%Q]; af_ct := [Qmake 8 10]; af_lines := [[(-(3), 1)]]%Q |}.
Definition example : list (sim Q) :=
  [ {| sm_S := 6; sm_layout := "3x2"; sm_CT := 80; sm_HH := 150; sm_farm := farm2 |};
    {| sm_S := 6; sm_layout := "3x2"; sm_CT := 80; sm_HH := 999; sm_farm := farm2 |};
    {| sm_S := 0; sm_layout := "1x1"; sm_CT := 80; sm_HH := 150; sm_farm := farm1 |} ].
Example C118_example :
  (forall s, In s example -> good_sim s) /\
  (forall i j s s', nth_error example i = Some s -> nth_error example j = Some s' -> same_case s s' -> i = j) /\
  map fst (map stored example) = ["d6_3x2_ct0.80_hh1.50"; "d6_3x2_ct0.80_hh9.99"; "d0_1x1_ct0.80_hh1.50"] /\
  getSim (map stored example) (SFloat (Qmake 12 2)) "3x2" (Qmake 4 5) (Qmake 3 2) = Ok (farm2, [(-(3), 1); (0, Qmake 9 10)]%Q) /\
  getSimTop (map stored example) (SInt 6) "3x2" (Qmake 4 5) (Qmake 3 2) = Ok (farm2, [(-(3), 1); (0, Qmake 8 10)]%Q) /\
  getSimTop (map stored example) (SInt 6) "1x1" (Qmake 4 5) (Qmake 3 2) = Err (EUnboundLocal "X_top") /\
  getSim (map stored example) (SInt 7) "3x2" (Qmake 4 5) (Qmake 3 2) = Err EKeyError.
Proof.
  split; [|split; [|repeat split; vm_compute; reflexivity]].
  - intros s [<-|[<-|[<-|[]]]]; (split; [cbn; lia|]; split; [cbn; lia|]); eexists; reflexivity.
  - intros i j s s' Hi Hj (A & B & C & D).
    destruct i as [|[|[|i]]]; cbn in Hi; try (destruct i; discriminate); injection Hi as <-;
    destruct j as [|[|[|j]]]; cbn in Hj; try (destruct j; discriminate); injection Hj as <-; cbn in *; congruence.
Qed.
