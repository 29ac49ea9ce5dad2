(** * C115: the arrays a turbine shares with its caller *)
From Coq Require Import ZArith List Bool String Arith Lia Reals Lra.
From Verif Require Import Num NumR NumX M_Turbine M_Farm M_Alias L_State L_X.
Import ListNotations.
Local Notation len := List.length.

(** ** Specification: value semantics.  Arrays of the program, and turbines that hold numbers.  An argument is worth
    what it contains when the call is made; writing an array changes that array and nothing else *)
Section Spec.
  Context {N : Num}.
  Notation pt := (N * N * N)%type.
  Definition entry3 (l : list N) (off str : nat) : pt :=
    (nth off l (nnan N), nth (off + str) l (nnan N), nth (off + 2 * str) l (nnan N)).
  Definition given (us : list (list N)) (a : arg N) : pt :=
    match a with AList p => p | AArr b off str => entry3 (nth b us []) off str end.
  Definition exists_in (us : list (list N)) (a : arg N) : Prop := match a with AList _ => True | AArr b _ _ => (b < len us)%nat end.
  Definition at_object (i : nat) (g : turbine N -> turbine N) (ts : list (turbine N)) : list (turbine N) :=
    match nth_error ts i with Some t => upd ts i (g t) | None => ts end.
  Fixpoint place (f : farm) (row : nat -> pt) (k : nat) (ts : list (turbine N)) : list (turbine N) :=
    match f with [] => ts | i :: f' => place f' row (S k) (at_object i (fun t => update_position t (row k)) ts) end.
  Definition row_of (l : list N) (n : nat) (Corder : bool) (k : nat) : pt := if Corder then entry3 l (3 * k) 1 else entry3 l k n.
  Definition know (us : list (list N)) (a : arg N) : bool := match a with AList _ => true | AArr b _ _ => Nat.ltb b (len us) end.
  Definition vstep (s : list (list N) * list (turbine N)) (o : op N) : list (list N) * list (turbine N) :=
    let '(us, ts) := s in
    match o with
    | PNew R hub shaft vert wind Lambda name Ground Model =>
        if forallb (know us) [hub; shaft; vert; wind]
        then (us, ts ++ [new_turbine R (given us hub) (given us shaft) (given us vert) (given us wind) None Lambda name Ground Model])
        else (us, ts)
    | PPos i a => (us, if know us a then at_object i (fun t => update_position t (given us a)) ts else ts)
    | PWind i a => (us, if know us a then at_object i (fun t => update_wind t (given us a)) ts else ts)
    | PYaw i yaw => (us, at_object i (fun t => update_yaw_pos t yaw) ts)
    | PChi i chi => (us, at_object i (fun t => set_chi t chi) ts)
    | PLoad i minim r Ct Gamma Lambda nCyl f => (us, at_object i (fun t => fst (update_loading minim r Ct Gamma Lambda nCyl f t)) ts)
    | PCompute i o pts => (us, at_object i (fun t => fst (compute_u t o pts)) ts)
    | PArray l => (us ++ [l], ts)
    | PWrite b k x => (upd us b (upd (nth b us []) k x), ts)
    | PLayoutSet f b Corder => (us, if Nat.eqb (len (nth b us [])) (3 * len f) then place f (row_of (nth b us []) (len f) Corder) 0 ts else ts)
    | PLayoutGet f => (us ++ [hubs_of ts f], ts)
    end.
  Definition vrun (p : list (op N)) : list (list N) * list (turbine N) := fold_left vstep p ([], []).

  (** the program hands array [b] to the library *)
  Definition is_array (b : nat) (a : arg N) : Prop := match a with AList _ => False | AArr b' _ _ => b' = b end.
  Definition hands (b : nat) (o : op N) : Prop :=
    match o with
    | PNew _ hub shaft vert wind _ _ _ _ => Exists (is_array b) [hub; shaft; vert; wind]
    | PPos _ a | PWind _ a => is_array b a
    | PLayoutSet _ b' _ => b' = b
    | _ => False
    end.
  (** a coordinate of a vector *)
  Definition coord (j : nat) (p : pt) : N := let '(x, y, z) := p in match j with 0 => x | 1 => y | _ => z end%nat.
End Spec.

Section Proofs.
  Context {N : Num}.
  Notation pt := (N * N * N)%type.
  Definition views (c : cell N) : list view := [c_hub c; c_wind c; c_shaft0 c; c_vert c].
  Definition alive (m : mem N) (v : view) : Prop :=
    match v_buf v with User b => (b < len (m_user m))%nat | Lib b => (b < len (m_lib m))%nat end.
  Definition wfw (w : world N) : Prop := Forall (fun c => Forall (alive (w_mem w)) (views c)) (w_wt w).
  (** the entry k of the program's array b is memory of a turbine *)
  Definition covers (v : view) (b k : nat) : Prop := v_buf v = User b /\ exists j, (j < 3)%nat /\ (v_off v + j * v_str v = k)%nat.
  Definition shares (c : cell N) (b k : nat) : Prop := Exists (fun v => covers v b k) (views c).

  Lemma upd_length {A} (l : list A) i a : len (upd l i a) = len l.
  Proof. revert i. induction l as [|b l IH]; intros [|i]; cbn; auto. Qed.
  Lemma upd_nth {A} (l : list A) i j a d : nth j (upd l i a) d = if andb (Nat.eqb i j) (Nat.ltb i (len l)) then a else nth j l d.
  Proof.
    revert i j. induction l as [|b l IH]; intros [|i] [|j]; cbn; auto.
    - rewrite andb_false_r. reflexivity.
    - rewrite IH. reflexivity.
  Qed.
  Lemma upd_map {A B} (g : A -> B) (l : list A) i a : map g (upd l i a) = upd (map g l) i (g a).
  Proof. revert i. induction l as [|b l IH]; intros [|i]; cbn; auto. f_equal. apply IH. Qed.
  Lemma upd_Forall {A} (P : A -> Prop) l i a : Forall P l -> P a -> Forall P (upd l i a).
  Proof. intros H Ha. revert i. induction H as [|b l Hb Hl IH]; intros [|i]; cbn; constructor; auto. Qed.
  Lemma upd_ext {A} (l l' : list A) i a : len l = len l' -> (forall j, j <> i -> nth_error l j = nth_error l' j) -> upd l i a = upd l' i a.
  Proof.
    revert l' i. induction l as [|b l IH]; intros [|b' l'] [|i] HL H; cbn in *; try discriminate; auto.
    - f_equal. clear IH. revert l' HL H. induction l as [|c l IH]; intros [|c' l'] HL H; cbn in *; try discriminate; auto.
      pose proof (H 1%nat ltac:(lia)) as E. cbn in E. injection E as ->. f_equal. apply IH; [lia|].
      intros [|j] Hj; [lia|]. apply (H (S (S j))). lia.
    - pose proof (H 0%nat ltac:(lia)) as E. cbn in E. injection E as ->. f_equal. apply IH; [lia|].
      intros j Hj. apply (H (S j)). lia.
  Qed.

  (** memory grows *)
  Definition grows (m m' : mem N) : Prop := m_user m' = m_user m /\ exists l, m_lib m' = m_lib m ++ l.
  Lemma grows_refl m : grows m m.
  Proof. split; [auto|]. exists []. rewrite app_nil_r. auto. Qed.
  Lemma grows_trans a b c : grows a b -> grows b c -> grows a c.
  Proof. intros [A [l E]] [B [l' E']]. split; [congruence|]. exists (l ++ l'). rewrite E', E, app_assoc. auto. Qed.
  Lemma grows_alive m m' v : grows m m' -> alive m v -> alive m' v.
  Proof. intros [A [l E]]. unfold alive. destruct (v_buf v); rewrite ?A, ?E, ?app_length; lia. Qed.
  Lemma grows_read m m' v : grows m m' -> alive m v -> read3 m' v = read3 m v.
  Proof.
    intros [A [l E]] H. unfold read3, load, buf. unfold alive in H. destruct (v_buf v); rewrite ?A, ?E; auto.
    rewrite app_nth1 by auto. reflexivity.
  Qed.
  Lemma read3_given (m : mem N) b off str : read3 m {| v_buf := User b; v_off := off; v_str := str |} = given (m_user m) (AArr b off str).
  Proof. unfold read3, load, given, entry3. cbn. rewrite !Nat.add_0_r. repeat f_equal. Qed.
  Lemma as_column_spec (m : mem N) a m' v : as_column m a = (m', v) -> know (m_user m) a = true ->
    grows m m' /\ alive m' v /\ read3 m' v = given (m_user m) a.
  Proof.
    assert (AL : forall p m' v, alloc_lib m p = (m', v) -> grows m m' /\ alive m' v /\ read3 m' v = p).
    { intros [[x y] z] m1 v1 E. unfold alloc_lib in E. injection E as <- <-. split; [|split].
      - split; [reflexivity|]. cbn. eexists; reflexivity.
      - unfold alive. cbn. rewrite app_length. cbn. lia.
      - unfold read3, load, buf. cbn [v_buf v_off v_str m_lib]. rewrite app_nth2 by lia. rewrite Nat.sub_diag. reflexivity. }
    intros E K. destruct a as [p|b off str]; cbn [as_column] in E; [apply AL; auto|]. cbn in K. apply Nat.ltb_lt in K.
    destruct (Nat.eqb_spec str 1).
    - injection E as <- <-. split; [apply grows_refl|]. split; [exact K|]. rewrite read3_given. reflexivity.
    - destruct (AL _ _ _ E) as (A & B & C). split; [auto|]. split; [auto|]. rewrite C, read3_given. reflexivity.
  Qed.
  Lemma grows_see (m m' : mem N) c : grows m m' -> Forall (alive m) (views c) -> see m' c = see m c.
  Proof.
    intros G H. unfold views in H. rewrite !Forall_cons_iff in H. destruct H as (A & B & C & D & _).
    unfold see. rewrite !(grows_read m m') by auto. reflexivity.
  Qed.
  Lemma grows_objects m m' cs : grows m m' -> Forall (fun c => Forall (alive m) (views c)) cs -> map (see m') cs = map (see m) cs.
  Proof. intros G H. apply map_ext_in. intros c Hc. apply grows_see; auto. rewrite Forall_forall in H. auto. Qed.
  Lemma grows_wf m m' cs : grows m m' -> Forall (fun c => Forall (alive m) (views c)) cs -> Forall (fun c => Forall (alive m') (views c)) cs.
  Proof. intros G H. eapply Forall_impl; [|exact H]. intros c. apply Forall_impl. intros v. apply grows_alive; auto. Qed.

  Lemma at_object_objects w i (g : turbine N -> turbine N) m' c' : wfw w -> grows (w_mem w) m' -> 
    (forall c, nth_error (w_wt w) i = Some c -> see m' (c' c) = g (see (w_mem w) c)) ->
    match nth_error (w_wt w) i with Some c => map (see m') (upd (w_wt w) i (c' c)) | None => objects w end = at_object i g (objects w).
  Proof.
    intros W G H. unfold at_object, objects. rewrite nth_error_map. destruct (nth_error (w_wt w) i) as [c|] eqn:E; cbn [option_map]; [|reflexivity].
    rewrite upd_map, (H c eq_refl). f_equal. apply grows_objects; auto.
  Qed.

  (** the invariant: alive views and the abstraction *)
  Definition sim (w : world N) (s : list (list N) * list (turbine N)) : Prop := wfw w /\ m_user (w_mem w) = fst s /\ objects w = snd s.
  Lemma on_cell_sim w us ts i g :
    (forall t, t_rhub (g t) = t_rhub t /\ t_U0 (g t) = t_U0 t /\ t_shaft0 (g t) = t_shaft0 t /\ t_vert (g t) = t_vert t) ->
    sim w (us, ts) -> sim (on_cell w i g) (us, at_object i g ts).
  Proof.
    intros HG (W & U & O). cbn [fst snd] in *. subst us ts. unfold on_cell.
    pose proof (at_object_objects w i g (w_mem w) (fun c => {| c_t := g (see (w_mem w) c); c_hub := c_hub c; c_wind := c_wind c; c_shaft0 := c_shaft0 c; c_vert := c_vert c |}) W (grows_refl _)) as H.
    destruct (nth_error (w_wt w) i) as [c|] eqn:E; cbn [fst snd].
    - split; [|split; [reflexivity|]].
      + unfold wfw. cbn [w_mem w_wt]. apply upd_Forall; [exact W|]. unfold wfw in W. rewrite Forall_forall in W. apply (W c). eapply nth_error_In; eauto.
      + unfold objects at 1. cbn [w_mem w_wt snd]. apply H. intros c0 E0. injection E0 as <-. destruct (HG (see (w_mem w) c)) as (A & B & C & D).
        unfold see at 1. cbn [c_t c_hub c_wind c_shaft0 c_vert]. 
        transitivity (mkT (t_R (g (see (w_mem w) c))) (t_rhub (g (see (w_mem w) c))) (t_shaft (g (see (w_mem w) c))) (t_shaft0 (g (see (w_mem w) c))) (t_vert (g (see (w_mem w) c))) (t_horz (g (see (w_mem w) c))) (t_TF2g (g (see (w_mem w) c))) (t_Tc2wt (g (see (w_mem w) c))) (t_Twt2g (g (see (w_mem w) c))) (t_yaw (g (see (w_mem w) c))) (t_U0 (g (see (w_mem w) c))) (t_r (g (see (w_mem w) c))) (t_gt (g (see (w_mem w) c))) (t_gl (g (see (w_mem w) c))) (t_Gr (g (see (w_mem w) c))) (t_Lambda (g (see (w_mem w) c))) (t_ground (g (see (w_mem w) c))) (t_chi (g (see (w_mem w) c))) (t_model (g (see (w_mem w) c))) (t_Ct (g (see (w_mem w) c))) (t_name (g (see (w_mem w) c)))).
        * rewrite A, B, C, D. reflexivity.
        * destruct (g (see (w_mem w) c)); reflexivity.
    - split; [auto|]. split; [auto|]. cbn [snd]. apply H. discriminate.
  Qed.
  Lemma assign_hub_sim w us ts i a : know us a = true -> sim w (us, ts) ->
    sim (assign_hub i a w) (us, at_object i (fun t => update_position t (given us a)) ts) /\ m_user (w_mem (assign_hub i a w)) = us.
  Proof.
    intros K (W & U & O). cbn [fst snd] in *. subst us ts. unfold assign_hub. destruct (as_column (w_mem w) a) as [m v] eqn:EC.
    destruct (as_column_spec _ _ _ _ EC K) as (G & AL & RD).
    pose proof (at_object_objects w i (fun t => update_position t (given (m_user (w_mem w)) a)) m (fun c => {| c_t := c_t c; c_hub := v; c_wind := c_wind c; c_shaft0 := c_shaft0 c; c_vert := c_vert c |}) W G) as H.
    pose proof W as W0. unfold wfw in W0. rewrite Forall_forall in W0.
    destruct (nth_error (w_wt w) i) as [c|] eqn:E.
    - assert (Wc := W0 c (nth_error_In _ _ E)). pose proof Wc as Wc'. unfold views in Wc'. rewrite !Forall_cons_iff in Wc'. destruct Wc' as (A & B & C & D & _).
      split; [|apply (proj1 G)]. split; [|split; [apply (proj1 G)|]].
      + unfold wfw. cbn [w_mem w_wt]. apply upd_Forall; [apply (grows_wf _ _ _ G W)|]. unfold views. cbn. repeat constructor; auto; eapply grows_alive; eauto.
      + unfold objects at 1. cbn [w_mem w_wt snd]. apply H. intros c0 E0. injection E0 as <-. unfold see, update_position, set_rhub. cbn.
        rewrite RD, !(grows_read _ _ _ G) by auto. reflexivity.
    - split; [|reflexivity]. split; [auto|]. split; [auto|]. cbn [snd]. apply H. discriminate.
  Qed.
  Lemma assign_wind_sim w us ts i a : know us a = true -> sim w (us, ts) -> sim (assign_wind i a w) (us, at_object i (fun t => update_wind t (given us a)) ts).
  Proof.
    intros K (W & U & O). cbn [fst snd] in *. subst us ts. unfold assign_wind. destruct (as_column (w_mem w) a) as [m v] eqn:EC.
    destruct (as_column_spec _ _ _ _ EC K) as (G & AL & RD).
    pose proof (at_object_objects w i (fun t => update_wind t (given (m_user (w_mem w)) a)) m (fun c => {| c_t := c_t c; c_hub := c_hub c; c_wind := v; c_shaft0 := c_shaft0 c; c_vert := c_vert c |}) W G) as H.
    pose proof W as W0. unfold wfw in W0. rewrite Forall_forall in W0.
    destruct (nth_error (w_wt w) i) as [c|] eqn:E.
    - assert (Wc := W0 c (nth_error_In _ _ E)). pose proof Wc as Wc'. unfold views in Wc'. rewrite !Forall_cons_iff in Wc'. destruct Wc' as (A & B & C & D & _).
      split; [|split; [apply (proj1 G)|]].
      + unfold wfw. cbn [w_mem w_wt]. apply upd_Forall; [apply (grows_wf _ _ _ G W)|]. unfold views. cbn. repeat constructor; auto; eapply grows_alive; eauto.
      + unfold objects at 1. cbn [w_mem w_wt snd]. apply H. intros c0 E0. injection E0 as <-. unfold see, update_wind, set_U0. cbn.
        rewrite RD, !(grows_read _ _ _ G) by auto. reflexivity.
    - split; [auto|]. split; [auto|]. cbn [snd]. apply H. discriminate.
  Qed.
  Lemma set_rows_sim f b n Corder : forall k w us ts, (b < len us)%nat -> sim w (us, ts) ->
    sim (set_rows f (row_arg b n Corder) k w) (us, place f (row_of (nth b us []) n Corder) k ts).
  Proof.
    induction f as [|i f IH]; intros k w us ts HB H; [exact H|]. cbn [set_rows place].
    assert (K : know us (row_arg (N := N) b n Corder k) = true) by (unfold row_arg; destruct Corder; cbn; apply Nat.ltb_lt; auto).
    destruct (assign_hub_sim w us ts i (row_arg b n Corder k) K H) as [S _].
    assert (E : given us (row_arg (N := N) b n Corder k) = row_of (nth b us []) n Corder k) by (unfold row_arg, row_of; destruct Corder; reflexivity).
    rewrite E in S. apply IH; auto.
  Qed.
  Lemma alloc_user_sim w us ts l : sim w (us, ts) -> sim {| w_mem := alloc_user (w_mem w) l; w_wt := w_wt w |} (us ++ [l], ts).
  Proof.
    intros (W & U & O). cbn [fst snd] in *. subst us ts.
    assert (AL : forall v, alive (w_mem w) v -> alive (alloc_user (w_mem w) l) v /\ read3 (alloc_user (w_mem w) l) v = read3 (w_mem w) v).
    { intros v. unfold alive, read3, load, buf. cbn. destruct (v_buf v); [|auto]. rewrite app_length. cbn. intros H. split; [lia|]. rewrite app_nth1 by auto. reflexivity. }
    unfold wfw in W. split; [|split; [reflexivity|]].
    - unfold wfw. cbn [w_mem w_wt]. eapply Forall_impl; [|exact W]. intros c. apply Forall_impl. intros v Hv. apply AL, Hv.
    - unfold objects. cbn [w_mem w_wt snd]. apply map_ext_in. intros c Hc. rewrite Forall_forall in W. specialize (W c Hc). unfold views in W. rewrite !Forall_cons_iff in W.
      destruct W as (A & B & C & D & _). unfold see. rewrite (proj2 (AL _ A)), (proj2 (AL _ B)), (proj2 (AL _ C)), (proj2 (AL _ D)). reflexivity.
  Qed.
  Lemma write_read (m : mem N) b k x v j : (j < 3)%nat ->
    load (write_user m b k x) v j = if (match v_buf v with User b' => Nat.eqb b' b | Lib _ => false end) && Nat.eqb (v_off v + j * v_str v) k
                                       && (Nat.ltb b (len (m_user m)) && Nat.ltb k (len (nth b (m_user m) [])))
                                    then x else load m v j.
  Proof.
    intros hj. unfold load, buf, write_user. destruct (v_buf v) as [b'|b']; [|reflexivity]. cbn [m_user]. rewrite upd_nth.
    rewrite (Nat.eqb_sym b' b). destruct (Nat.eqb_spec b b') as [<-|]; [|reflexivity]. destruct (Nat.ltb b (len (m_user m))); cbn [andb]; [|rewrite !andb_false_r; reflexivity].
    rewrite upd_nth. rewrite (Nat.eqb_sym k). reflexivity.
  Qed.
  Lemma write_alive (m : mem N) b k x v : alive (write_user m b k x) v <-> alive m v.
  Proof. unfold alive, write_user. destruct (v_buf v); cbn; rewrite ?upd_length; tauto. Qed.
  Lemma write_untouched (m : mem N) b k x c : ~ shares c b k -> see (write_user m b k x) c = see m c.
  Proof.
    intros H. assert (R : forall v, In v (views c) -> read3 (write_user m b k x) v = read3 m v).
    { intros v Hv. assert (L : forall j, (j < 3)%nat -> load (write_user m b k x) v j = load m v j).
      { intros j hj. rewrite write_read by auto. destruct (v_buf v) as [b'|b'] eqn:EV; [|reflexivity].
        destruct (Nat.eqb_spec b' b) as [->|]; [|reflexivity]. destruct (Nat.eqb_spec (v_off v + j * v_str v) k); [|reflexivity].
        exfalso. apply H. apply Exists_exists. exists v. split; [auto|]. split; [auto|]. eauto. }
      unfold read3. rewrite !L by lia. reflexivity. }
    unfold see. rewrite !R; [reflexivity| | | |]; cbn; auto.
  Qed.
  Lemma write_sim w us ts b k x : (forall c, In c (w_wt w) -> ~ shares c b k) -> sim w (us, ts) ->
    sim (step w (PWrite b k x)) (vstep (us, ts) (PWrite b k x)).
  Proof.
    intros HS (W & U & O). cbn [fst snd] in *. subst us ts. cbn [step vstep]. split; [|split; [reflexivity|]].
    - unfold wfw in *. cbn [w_mem w_wt]. eapply Forall_impl; [|exact W]. intros c. apply Forall_impl. intros v. apply write_alive.
    - unfold objects. cbn [w_mem w_wt snd]. apply map_ext_in. intros c Hc. apply write_untouched; auto.
  Qed.
  Lemma known_know (m : mem N) a : known m a = know (m_user m) a.
  Proof. destruct a; reflexivity. Qed.
  Definition is_write (o : op N) : Prop := match o with PWrite _ _ _ => True | _ => False end.
  Lemma step_sim w us ts o : ~ is_write o -> sim w (us, ts) -> sim (step w o) (vstep (us, ts) o).
  Proof.
    intros NW H. pose proof H as (W & U & O). cbn [fst snd] in U, O.
    destruct o as [R hub shaft vert wind Lambda name Ground Model|i a|i a|i yaw|i chi|i minim r Ct Gamma Lambda nCyl f|i o pts|l|b k x|f b Co|f]; cbn [step vstep].
    - assert (KE : forallb (known (w_mem w)) [hub; shaft; vert; wind] = forallb (know us) [hub; shaft; vert; wind]).
      { cbn. rewrite !known_know, U. reflexivity. }
      rewrite KE. destruct (forallb (know us) _) eqn:K; cbn [negb]; [|exact H]. cbn in K. rewrite !andb_true_iff in K. destruct K as (Kh & Ks & Kv & Kw & _).
      rewrite <- U in Kh, Ks, Kv, Kw.
      destruct (as_column (w_mem w) shaft) as [m1 vs] eqn:E1. destruct (as_column_spec _ _ _ _ E1 Ks) as (G1 & A1 & R1).
      destruct (as_column m1 vert) as [m2 vv] eqn:E2. rewrite <- (proj1 G1) in Kv. destruct (as_column_spec _ _ _ _ E2 Kv) as (G2 & A2 & R2).
      pose proof (grows_trans _ _ _ G1 G2) as G02.
      destruct (as_column m2 hub) as [m3 vh] eqn:E3. rewrite <- (proj1 G02) in Kh. destruct (as_column_spec _ _ _ _ E3 Kh) as (G3 & A3 & R3).
      pose proof (grows_trans _ _ _ G02 G3) as G03.
      destruct (as_column m3 wind) as [m4 vw] eqn:E4. rewrite <- (proj1 G03) in Kw. destruct (as_column_spec _ _ _ _ E4 Kw) as (G4 & A4 & R4).
      pose proof (grows_trans _ _ _ G03 G4) as G04. pose proof (grows_trans _ _ _ G3 G4) as G24. pose proof (grows_trans _ _ _ G2 G24) as G14.
      assert (Rs : read3 m4 vs = given us shaft) by (rewrite (grows_read m1 m4) by auto; rewrite R1, U; reflexivity).
      assert (Rv : read3 m4 vv = given us vert) by (rewrite (grows_read m2 m4) by auto; rewrite R2, (proj1 G1), U; reflexivity).
      assert (Rh : read3 m4 vh = given us hub) by (rewrite (grows_read m3 m4) by auto; rewrite R3, (proj1 G02), U; reflexivity).
      assert (Rw : read3 m4 vw = given us wind) by (rewrite R4, (proj1 G03), U; reflexivity).
      split; [|split].
      + unfold wfw. cbn [w_mem w_wt]. apply Forall_app. split; [apply (grows_wf _ _ _ G04 W)|]. constructor; [|constructor].
        unfold views. cbn. repeat constructor; [apply (grows_alive m3); auto|auto|apply (grows_alive m1); auto|apply (grows_alive m2); auto].
      + change (m_user m4 = us). rewrite (proj1 G04). exact U.
      + unfold objects. cbn [w_mem w_wt snd]. rewrite map_app. cbn [map]. rewrite (grows_objects _ _ _ G04 W). fold (objects w). rewrite O. f_equal. f_equal.
        unfold see. cbn [c_t c_hub c_wind c_shaft0 c_vert]. rewrite Rs, Rv, Rh, Rw. reflexivity.
    - rewrite known_know, U. destruct (know us a) eqn:K; [|exact H]. apply assign_hub_sim; auto.
    - rewrite known_know, U. destruct (know us a) eqn:K; [|exact H]. apply assign_wind_sim; auto.
    - apply on_cell_sim; [intros t; repeat split|exact H].
    - apply on_cell_sim; [intros t; repeat split|exact H].
    - apply on_cell_sim; [|exact H]. intros t. destruct (update_loading_fields minim r Ct Gamma Lambda nCyl f t) as (_ & A & _ & B & C & _ & _ & _ & _ & _ & D & _). auto.
    - apply on_cell_sim; [intros t; repeat split|exact H].
    - apply alloc_user_sim; auto.
    - destruct (NW I).
    - rewrite U. destruct (Nat.eqb_spec (len (nth b us [])) (3 * len f)) as [E|]; [|exact H].
      destruct (Nat.lt_ge_cases b (len us)) as [HB|HB]; [apply set_rows_sim; auto|].
      rewrite nth_overflow in E by auto. destruct f as [|i f]; [exact H|cbn in E; lia].
    - fold (objects w). rewrite O. apply alloc_user_sim; auto.
  Qed.

  Lemma run_snoc p o : run (p ++ [o]) = step (run p) (o : op N).
  Proof. unfold run. rewrite fold_left_app. reflexivity. Qed.
  Lemma vrun_snoc p o : vrun (p ++ [o]) = vstep (vrun p) (o : op N).
  Proof. unfold vrun. rewrite fold_left_app. reflexivity. Qed.
  Lemma run_sim (p : list (op N)) :
    (forall pre b k x post, p = pre ++ PWrite b k x :: post -> forall c, In c (w_wt (run pre)) -> ~ shares c b k) -> sim (run p) (vrun p).
  Proof.
    induction p as [|o p IH] using rev_ind; intros H; [split; [constructor|split; reflexivity]|].
    rewrite run_snoc, vrun_snoc.
    assert (S : sim (run p) (vrun p)). { apply IH. intros pre b k x post E. apply (H pre b k x (post ++ [o])). rewrite E, <- app_assoc. reflexivity. }
    destruct (vrun p) as [us ts].
    destruct o as [R hub shaft vert wind Lambda name Ground Model|i a|i a|i yaw|i chi|i minim r Ct Gamma Lambda nCyl f|i o pts|l|b k x|f b Co|f];
      try solve [apply step_sim; [intros []|exact S]].
    apply write_sim; [|exact S]. apply (H p b k x []). reflexivity.
  Qed.
  Lemma step_wf w o : wfw w -> wfw (step w (o : op N)).
  Proof.
    intros W. destruct o as [R hub shaft vert wind Lambda name Ground Model|i a|i a|i yaw|i chi|i minim r Ct Gamma Lambda nCyl f|i o pts|l|b k x|f b Co|f];
      try solve [refine (proj1 (step_sim w _ _ _ _ (conj W (conj eq_refl eq_refl)))); intros []].
    cbn [step]. unfold wfw in *. cbn [w_mem w_wt]. eapply Forall_impl; [|exact W]. intros c. apply Forall_impl. intros v. apply write_alive.
  Qed.
  Lemma run_wf p : wfw (run (N := N) p).
  Proof. induction p as [|o p IH] using rev_ind; [constructor|]. rewrite run_snoc. apply step_wf; auto. Qed.

  (** which arrays of the program the views refer to *)
  Definition of_user (b : nat) (v : view) : Prop := v_buf v = User b.
  Definition user_of (w : world N) (b : nat) : Prop := Exists (fun c => Exists (of_user b) (views c)) (w_wt w).
  Lemma as_column_user m a m' v b : as_column m a = (m', v) -> of_user b v -> is_array b (a : arg N).
  Proof.
    unfold of_user. destruct a as [[[x y] z]|b' off str]; cbn.
    - intros E H. injection E as <- <-. discriminate.
    - destruct (Nat.eqb str 1); intros E H; injection E as <- <-; cbn in H; congruence.
  Qed.
  Lemma on_cell_user w i g b : user_of (on_cell w i g) b -> user_of w b.
  Proof.
    unfold on_cell, user_of. destruct (nth_error (w_wt w) i) as [c|] eqn:E; [|auto]. cbn [w_wt]. rewrite !Exists_exists. intros (c' & Hin & H).
    apply In_nth_error in Hin. destruct Hin as [n Hn]. assert (In c' (upd (w_wt w) i {| c_t := g (see (w_mem w) c); c_hub := c_hub c; c_wind := c_wind c; c_shaft0 := c_shaft0 c; c_vert := c_vert c |})) as Hin by (eapply nth_error_In; eauto).
    clear n Hn. set (cc := {| c_t := _ |}) in *. assert (UI : In c' (w_wt w) \/ c' = cc).
    { clear - Hin. revert i Hin. induction (w_wt w) as [|a l IH]; intros [|i]; cbn; [tauto|tauto| |]; intros [H|H]; auto. destruct (IH _ H); auto. }
    destruct UI as [HI| ->]; [exists c'; auto|]. exists c. split; [eapply nth_error_In; eauto|]. exact H.
  Qed.
  Lemma upd_In {A} (l : list A) i a x : In x (upd l i a) -> In x l \/ x = a.
  Proof. revert i. induction l as [|b l IH]; intros [|i]; cbn; [tauto|tauto| |]; intros [H|H]; auto. destruct (IH _ H); auto. Qed.
  Lemma assign_hub_user w i a b : user_of (assign_hub i a w) b -> user_of w b \/ is_array b a.
  Proof.
    unfold assign_hub, user_of. destruct (nth_error (w_wt w) i) as [c|] eqn:E; [|auto]. destruct (as_column (w_mem w) a) as [m v] eqn:EC. cbn [w_wt].
    rewrite !Exists_exists. intros (c' & Hin & H). apply upd_In in Hin. destruct Hin as [Hin| ->]; [left; exists c'; auto|].
    unfold views in H. cbn in H. rewrite !Exists_cons in H. destruct H as [H|[H|[H|[H|H]]]]; [right; eapply as_column_user; eauto|..|inversion H];
      left; exists c; (split; [eapply nth_error_In; eauto|]); unfold views; rewrite !Exists_cons; auto.
  Qed.
  Lemma assign_wind_user w i a b : user_of (assign_wind i a w) b -> user_of w b \/ is_array b a.
  Proof.
    unfold assign_wind, user_of. destruct (nth_error (w_wt w) i) as [c|] eqn:E; [|auto]. destruct (as_column (w_mem w) a) as [m v] eqn:EC. cbn [w_wt].
    rewrite !Exists_exists. intros (c' & Hin & H). apply upd_In in Hin. destruct Hin as [Hin| ->]; [left; exists c'; auto|].
    unfold views in H. cbn in H. rewrite !Exists_cons in H. destruct H as [H|[H|[H|[H|H]]]]; [|right; eapply as_column_user; eauto|..|inversion H];
      left; exists c; (split; [eapply nth_error_In; eauto|]); unfold views; rewrite !Exists_cons; auto.
  Qed.
  Lemma set_rows_user f b n Co b' : forall k w, user_of (set_rows f (row_arg b n Co) k w) b' -> user_of w b' \/ b = b'.
  Proof.
    induction f as [|i f IH]; intros k w H; [auto|]. cbn [set_rows] in H. apply IH in H. destruct H as [H|H]; [|auto].
    apply assign_hub_user in H. destruct H as [H|H]; [auto|]. right. unfold row_arg in H. destruct Co; exact H.
  Qed.
  Lemma step_user w o b : user_of (step w (o : op N)) b -> user_of w b \/ hands b o.
  Proof.
    destruct o as [R hub shaft vert wind Lambda name Ground Model|i a|i a|i yaw|i chi|i minim r Ct Gamma Lambda nCyl f|i o pts|l|b0 k x|f b0 Co|f]; cbn [step hands]; intros H;
      try (left; apply on_cell_user in H; exact H); try (left; exact H).
    - destruct (negb _); [auto|]. destruct (as_column (w_mem w) shaft) as [m1 vs] eqn:E1. destruct (as_column m1 vert) as [m2 vv] eqn:E2.
      destruct (as_column m2 hub) as [m3 vh] eqn:E3. destruct (as_column m3 wind) as [m4 vw] eqn:E4.
      unfold user_of in H. cbn [w_wt] in H. rewrite Exists_app in H. destruct H as [H|H]; [left; exact H|]. right. apply Exists_cons in H.
      destruct H as [H|H]; [|inversion H]. unfold views in H. cbn in H. rewrite !Exists_cons in H. rewrite !Exists_cons.
      destruct H as [H|[H|[H|[H|H]]]]; [| | | |inversion H].
      + left. eapply as_column_user; eauto.
      + right; right; right; left. eapply as_column_user; eauto.
      + right; left. eapply as_column_user; eauto.
      + right; right; left. eapply as_column_user; eauto.
    - destruct (known _ a); [|auto]. eapply assign_hub_user; eauto.
    - destruct (known _ a); [|auto]. eapply assign_wind_user; eauto.
    - destruct (Nat.eqb _ _); [|auto]. apply set_rows_user in H. exact H.
  Qed.
  Lemma run_user p b : user_of (run p) b -> exists o : op N, In o p /\ hands b o.
  Proof.
    induction p as [|o p IH] using rev_ind; [intros H; inversion H|]. rewrite run_snoc. intros H. apply step_user in H. destruct H as [H|H].
    - destruct (IH H) as (o' & A & B). exists o'. split; [apply in_or_app; auto|auto].
    - exists o. split; [apply in_or_app; cbn; auto|auto].
  Qed.
End Proofs.

(** ** C115 *)
(** A program that never writes an array after handing it to the library is described by the value semantics of the
    rest of this development: same arrays, and turbines with the same attributes (as seen by all the methods) *)
Theorem C115_value_semantics_partial : forall (N : Num) (p : list (op N)),
  (forall pre b k x post, p = pre ++ PWrite b k x :: post -> forall o, In o pre -> ~ hands b o) ->
  m_user (w_mem (run p)) = fst (vrun p) /\ objects (run p) = snd (vrun p).
Proof.
  intros N p H. assert (S : sim (run p) (vrun p)).
  { apply run_sim. intros pre b k x post E c Hc HS. destruct (run_user pre b) as (o & A & B).
    - apply Exists_exists. exists c. split; [auto|]. eapply Exists_impl; [|exact HS]. intros v [E' _]. exact E'.
    - exact (H pre b k x post E o A B). }
  exact (proj2 S).
Qed.
(** It is enough that no written entry is memory of a turbine at that moment *)
Theorem C115_unshared_writes_partial : forall (N : Num) (p : list (op N)),
  (forall pre b k x post, p = pre ++ PWrite b k x :: post -> forall c, In c (w_wt (run pre)) -> ~ shares c b k) ->
  m_user (w_mem (run p)) = fst (vrun p) /\ objects (run p) = snd (vrun p).
Proof. intros N p H. exact (proj2 (run_sim p H)). Qed.
(** What any write does to any turbine: the entry written, and only it, is replaced in each of the four vectors that
    contain it; all the other attributes are unchanged *)
Theorem C115_write_effect : forall (N : Num) (p : list (op N)) b k x i c,
  nth_error (w_wt (run p)) i = Some c -> (b < len (m_user (w_mem (run p))))%nat -> (k < len (nth b (m_user (w_mem (run p))) []))%nat ->
  exists t t', nth_error (objects (run p)) i = Some t /\ nth_error (objects (run (p ++ [PWrite b k x]))) i = Some t' /\
    (forall v (q : turbine N -> N * N * N), In (v, q) [(c_hub c, t_rhub (N := N)); (c_wind c, t_U0 (N := N)); (c_shaft0 c, t_shaft0 (N := N)); (c_vert c, t_vert (N := N))] ->
       forall j, (j < 3)%nat -> (v_buf v = User b /\ (v_off v + j * v_str v = k)%nat -> coord j (q t') = x) /\
                               (~ (v_buf v = User b /\ (v_off v + j * v_str v = k)%nat) -> coord j (q t') = coord j (q t))) /\
    t' = mkT (t_R t) (t_rhub t') (t_shaft t) (t_shaft0 t') (t_vert t') (t_horz t) (t_TF2g t) (t_Tc2wt t) (t_Twt2g t) (t_yaw t) (t_U0 t')
             (t_r t) (t_gt t) (t_gl t) (t_Gr t) (t_Lambda t) (t_ground t) (t_chi t) (t_model t) (t_Ct t) (t_name t).
Proof.
  intros N p b k x i c Hc HB HK. rewrite run_snoc. unfold objects. cbn [step w_mem w_wt]. set (m := w_mem (run p)) in *.
  exists (see m c), (see (write_user m b k x) c). rewrite !nth_error_map, Hc. split; [reflexivity|]. split; [reflexivity|]. split; [|reflexivity].
  assert (G : forall v, let q m' := read3 m' v in forall j, (j < 3)%nat -> (v_buf v = User b /\ (v_off v + j * v_str v = k)%nat -> coord j (q (write_user m b k x)) = x) /\
                               (~ (v_buf v = User b /\ (v_off v + j * v_str v = k)%nat) -> coord j (q (write_user m b k x)) = coord j (q m))).
  { intros v q j hj. assert (E : forall m' : mem N, coord j (q m') = load m' v j) by (intros m'; unfold q, read3; destruct j as [|[|[|j]]]; [reflexivity..|lia]).
    rewrite !E, write_read by auto. apply Nat.ltb_lt in HB, HK. rewrite HB, HK. split.
    - intros [-> ->]. rewrite !Nat.eqb_refl. reflexivity.
    - intros NC. destruct (v_buf v) as [b'|b']; [|reflexivity]. destruct (Nat.eqb_spec b' b) as [->|]; [|reflexivity].
      destruct (Nat.eqb_spec (v_off v + j * v_str v) k) as [EK|]; [|reflexivity]. destruct NC; auto. }
  intros v q [E|[E|[E|[E|[]]]]]; injection E as <- <-; apply (G _).
Qed.
(** Without the restriction the property fails: the array given to update_position is written afterwards, no method of the
    turbine is called, and the hub has moved *)
Definition xl (x y z : R) : arg XN := AList (N := XN) (Fin x, Fin y, Fin z).
Definition arr (l : list R) : op XN := PArray (N := XN) (map Fin l).
Definition wr (b k : nat) (x : R) : op XN := PWrite (N := XN) b k (Fin x).
Definition straight (hub : arg XN) : op XN :=
  PNew (N := XN) (Fin 1) hub (xl 0 0 1) (xl 0 1 0) (xl 0 0 10) None "" false "VC".
Definition moved_program : list (op XN) :=
  [arr [0; 0; 0]%R; straight (xl 7 7 7); PPos 0 (AArr 0 0 1); wr 0 1 100].
Theorem C115_array_written_refuted : exists (p : list (op XN)) b k x t t',
  objects (run p) = [t] /\ snd (vrun (p ++ [PWrite b k x])) = [t] /\
  objects (run (p ++ [PWrite b k x])) = [t'] /\ t_rhub t' <> t_rhub t /\ t' = update_position t (t_rhub t').
Proof.
  exists (removelast moved_program), 0%nat, 1%nat, (Fin 100%R). eexists _, _.
  split; [reflexivity|]. split; [reflexivity|]. split; [reflexivity|]. split; [|reflexivity].
  cbn. intros E. injection E. lra.
Qed.
(** The array returned by the layout getter is new: writing it changes no turbine *)
Theorem C115_layout_is_a_copy : forall (N : Num) (p : list (op N)) f k x,
  let b := len (m_user (w_mem (run p))) in
  objects (run (p ++ [PLayoutGet f; PWrite b k x])) = objects (run p).
Proof.
  intros N p f k x b. assert (E : p ++ [PLayoutGet f; PWrite b k x] = (p ++ [PLayoutGet f]) ++ [PWrite b k x]) by (rewrite <- app_assoc; reflexivity).
  rewrite E, !run_snoc. pose proof (run_wf p) as W. cbn [step w_mem w_wt]. unfold objects at 1. cbn [w_mem w_wt].
  transitivity (objects {| w_mem := alloc_user (w_mem (run p)) (hubs_of (map (see (w_mem (run p))) (w_wt (run p))) f); w_wt := w_wt (run p) |}).
  - unfold objects. cbn [w_mem w_wt]. apply map_ext_in. intros c Hc. apply write_untouched. intros HS. apply Exists_exists in HS. destruct HS as (v & Hv & EV & _).
    unfold wfw in W. rewrite Forall_forall in W. specialize (W c Hc). rewrite Forall_forall in W. specialize (W v Hv). unfold alive in W. rewrite EV in W. unfold b in W. lia.
  - apply (alloc_user_sim (run p) (m_user (w_mem (run p))) (objects (run p))). split; [exact W|]. split; reflexivity.
Qed.
(** The rows of a layout given as an array in C order are the hubs themselves; one in Fortran order (with several rows) is copied *)
Section Layout.
  Context {N : Num}.
  Lemma assign_hub_views i a (w : world N) n : nth_error (w_wt (assign_hub i a w)) n =
    match nth_error (w_wt w) n with
    | Some c => if Nat.eqb n i then Some {| c_t := c_t c; c_hub := snd (as_column (w_mem w) a); c_wind := c_wind c; c_shaft0 := c_shaft0 c; c_vert := c_vert c |} else Some c
    | None => None end.
  Proof.
    unfold assign_hub. destruct (nth_error (w_wt w) i) as [c|] eqn:E.
    - destruct (as_column (w_mem w) a) as [m v]. cbn [w_wt snd]. revert i n E. induction (w_wt w) as [|d l IH]; intros [|i] [|n] E; cbn in *; try discriminate; auto.
      + congruence.
      + destruct (nth_error l n); reflexivity.
    - destruct (nth_error (w_wt w) n) eqn:E'; [|auto]. destruct (Nat.eqb_spec n i) as [->|]; [congruence|auto].
  Qed.
  Lemma set_rows_views f row : forall k (w : world N) n,
    (forall k' w', exists v, snd (as_column (w_mem w') (row k')) = v) -> ~ In n f -> nth_error (w_wt (set_rows f row k w)) n = nth_error (w_wt w) n.
  Proof.
    induction f as [|i f IH]; intros k w n HV HN; [reflexivity|]. cbn [set_rows]. rewrite IH; [|auto|cbn in HN; tauto]. rewrite assign_hub_views.
    destruct (nth_error (w_wt w) n); [|auto]. destruct (Nat.eqb_spec n i) as [->|]; [cbn in HN; tauto|auto].
  Qed.
  Lemma set_rows_hub f row : NoDup f -> forall k (w : world N) j i c, nth_error f j = Some i -> nth_error (w_wt w) i = Some c ->
    exists c' m', nth_error (w_wt (set_rows f row k w)) i = Some c' /\ c_hub c' = snd (as_column m' (row (k + j)%nat)) /\
      c_wind c' = c_wind c /\ c_shaft0 c' = c_shaft0 c /\ c_vert c' = c_vert c.
  Proof.
    induction 1 as [|i0 f HN HD IH]; intros k w j i c Hj Hc; [destruct j; discriminate|]. cbn [set_rows]. destruct j as [|j]; cbn in Hj.
    - injection Hj as ->. rewrite set_rows_views by (eauto; tauto). rewrite assign_hub_views, Hc, Nat.eqb_refl. rewrite Nat.add_0_r.
      eexists _, (w_mem w). split; [reflexivity|]. repeat split.
    - assert (HI : i <> i0) by (intros ->; apply HN; eapply nth_error_In; eauto).
      replace (k + S j)%nat with (S k + j)%nat by lia. apply IH; auto. rewrite assign_hub_views, Hc. destruct (Nat.eqb_spec i i0); [congruence|auto].
  Qed.
End Layout.
Theorem C115_layout_shares_rows : forall (N : Num) (p : list (op N)) f b r i j x,
  NoDup f -> (b < len (m_user (w_mem (run p))))%nat -> len (nth b (m_user (w_mem (run p))) []) = (3 * len f)%nat ->
  nth_error f r = Some i -> (i < len (w_wt (run p)))%nat -> (j < 3)%nat ->
  exists t t', nth_error (objects (run (p ++ [PLayoutSet f b true]))) i = Some t /\
    nth_error (objects (run (p ++ [PLayoutSet f b true; PWrite b (3 * r + j) x]))) i = Some t' /\
    forall j', (j' < 3)%nat -> coord j' (t_rhub t') = if Nat.eqb j' j then x else coord j' (t_rhub t).
Proof.
  intros N p f b r i j x HD HB HL Hr Hi Hj. set (q := p ++ [PLayoutSet f b true]).
  assert (Q : p ++ [PLayoutSet f b true; PWrite b (3 * r + j) x] = q ++ [PWrite b (3 * r + j) x]) by (unfold q; rewrite <- app_assoc; reflexivity). rewrite Q.
  assert (R : run q = set_rows f (row_arg b (len f) true) 0 (run p)). { unfold q. rewrite run_snoc. cbn [step]. rewrite HL, Nat.eqb_refl. reflexivity. }
  destruct (nth_error (w_wt (run p)) i) as [c|] eqn:EC; [|apply nth_error_None in EC; lia].
  destruct (set_rows_hub f (row_arg b (len f) true) HD 0 (run p) r i c Hr EC) as (c' & m' & E' & EH & _).
  assert (U : m_user (w_mem (run q)) = m_user (w_mem (run p))).
  { rewrite R. apply (set_rows_sim f b (len f) true 0 (run p) _ _ HB (conj (run_wf p) (conj eq_refl eq_refl))). }
  assert (HR : (r < len f)%nat) by (apply nth_error_Some; congruence).
  rewrite R in *. destruct (C115_write_effect N q b (3 * r + j) x i c') as (t & t' & ET & ET' & W & _).
  { rewrite R. exact E'. } { rewrite R, U. exact HB. } { rewrite R, U, HL. lia. }
  rewrite R in ET. exists t, t'. split; [exact ET|]. split; [exact ET'|]. intros j' hj'.
  destruct (W (c_hub c') (t_rhub (N := N)) (or_introl eq_refl) j' hj') as [A B]. rewrite EH in A, B. cbn [row_arg as_column Nat.eqb snd v_buf v_off v_str] in A, B.
  destruct (Nat.eqb_spec j' j) as [->|NE]; [apply A; split; [reflexivity|]; rewrite Nat.mul_1_r; lia|]. apply B. intros [_ E]. lia.
Qed.
Theorem C115_layout_fortran_copied : forall (N : Num) (p : list (op N)) f b r i k x,
  NoDup f -> (1 < len f)%nat -> (b < len (m_user (w_mem (run p))))%nat -> len (nth b (m_user (w_mem (run p))) []) = (3 * len f)%nat ->
  nth_error f r = Some i -> (i < len (w_wt (run p)))%nat -> (k < 3 * len f)%nat ->
  exists t t', nth_error (objects (run (p ++ [PLayoutSet f b false]))) i = Some t /\
    nth_error (objects (run (p ++ [PLayoutSet f b false; PWrite b k x]))) i = Some t' /\ t_rhub t' = t_rhub t.
Proof.
  intros N p f b r i k x HD HF HB HL Hr Hi Hk. set (q := p ++ [PLayoutSet f b false]).
  assert (Q : p ++ [PLayoutSet f b false; PWrite b k x] = q ++ [PWrite b k x]) by (unfold q; rewrite <- app_assoc; reflexivity). rewrite Q.
  assert (R : run q = set_rows f (row_arg b (len f) false) 0 (run p)). { unfold q. rewrite run_snoc. cbn [step]. rewrite HL, Nat.eqb_refl. reflexivity. }
  destruct (nth_error (w_wt (run p)) i) as [c|] eqn:EC; [|apply nth_error_None in EC; lia].
  destruct (set_rows_hub f (row_arg b (len f) false) HD 0 (run p) r i c Hr EC) as (c' & m' & E' & EH & _).
  assert (U : m_user (w_mem (run q)) = m_user (w_mem (run p))).
  { rewrite R. apply (set_rows_sim f b (len f) false 0 (run p) _ _ HB (conj (run_wf p) (conj eq_refl eq_refl))). }
  rewrite R in *. destruct (C115_write_effect N q b k x i c') as (t & t' & ET & ET' & W & _).
  { rewrite R. exact E'. } { rewrite R, U. exact HB. } { rewrite R, U, HL. lia. }
  rewrite R in ET. exists t, t'. split; [exact ET|]. split; [exact ET'|].
  assert (L : exists n, v_buf (c_hub c') = Lib n).
  { rewrite EH. cbn [row_arg as_column]. assert (Nat.eqb (len f) 1 = false) as -> by (apply Nat.eqb_neq; lia). unfold alloc_lib. destruct (read3 _ _) as [[? ?] ?]. eexists; reflexivity. }
  destruct L as [n L]. assert (G : forall j, (j < 3)%nat -> coord j (t_rhub t') = coord j (t_rhub t)).
  { intros j hj. apply (W (c_hub c') (t_rhub (N := N)) (or_introl eq_refl) j hj). rewrite L. intros [E _]. discriminate. }
  pose proof (G 0%nat ltac:(lia)) as G0. pose proof (G 1%nat ltac:(lia)) as G1. pose proof (G 2%nat ltac:(lia)) as G2. destruct (t_rhub t) as [[? ?] ?], (t_rhub t') as [[? ?] ?]. cbn in *. congruence.
Qed.
(** the hypotheses are met: two turbines laid out from an array, and a program that writes only an array it has not handed over *)
Example C115_case : let p := [arr [0; 0; 0; 5; 0; 0]%R; straight (xl 7 7 7); straight (xl 8 8 8)] in
  (0 < len (m_user (w_mem (run p))))%nat /\ len (nth 0 (m_user (w_mem (run p))) []) = (3 * len [1; 0])%nat /\ len (w_wt (run p)) = 2%nat /\
  map (t_rhub (N := XN)) (objects (run (p ++ [PLayoutSet [1; 0]%nat 0 true; wr 0 4 9]))) = [(Fin 5, Fin 9, Fin 0)%R; (Fin 0, Fin 0, Fin 0)%R].
Proof. cbv zeta. split; [cbn; lia|]. split; [reflexivity|]. split; reflexivity. Qed.
Example C115_case_unshared : forall pre b k x post,
  [arr [0; 0; 0]%R; straight (AArr 0 0 1); arr [1%R]; wr 1 0 2] = pre ++ PWrite b k x :: post -> forall o : op XN, In o pre -> ~ hands b o.
Proof.
  intros pre b k x post E o Ho. destruct pre as [|o1 [|o2 [|o3 [|o4 [|o5 pre]]]]]; cbn in E; try discriminate.
  - injection E as <- <- <- E1 E2 E3 E4. subst b k x. destruct Ho as [<-|[<-|[<-|[]]]]; cbn; auto. intros H. rewrite !Exists_cons in H. cbn in H. 
    destruct H as [H|[H|[H|[H|H]]]]; try discriminate; try tauto. inversion H.
Qed.
