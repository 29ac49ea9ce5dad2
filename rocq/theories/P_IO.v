(** * Properties of the helper scripts: C74 (pretty_time), C75 (plane files) *)
From Coq Require Import ZArith QArith Qround String Ascii List Bool Arith Lia Lqa.
From Verif Require Import M_Tictoc M_PlaneIO.
Import ListNotations.
Local Open Scope string_scope.

(** ** C74 *)
Lemma len_app s t : String.length (s ++ t) = (String.length s + String.length t)%nat.
Proof. induction s; cbn; auto. Qed.
Lemma len_rep c n : String.length (rep c n) = n.
Proof. induction n; cbn; auto. Qed.
Lemma len_lpad c w s : String.length (lpad c w s) = Nat.max w (String.length s).
Proof. unfold lpad. rewrite len_app, len_rep. lia. Qed.
(** digits: between 1 and 2 characters below 100 *)
Lemma dec_small z : (0 <= z < 100)%Z -> (String.length (dec z) <= 2)%nat.
Proof.
  intros H. assert (K : forallb (fun i => Nat.leb (String.length (dec (Z.of_nat i))) 2) (seq 0 100) = true) by (vm_compute; reflexivity).
  rewrite forallb_forall in K. specialize (K (Z.to_nat z)). rewrite in_seq, Z2Nat.id in K by lia. apply Nat.leb_le, K. lia.
Qed.
Lemma len_d2 z : (0 <= z < 100)%Z -> String.length (d2 z) = 2%nat.
Proof. intros H. unfold d2. rewrite len_lpad. pose proof (dec_small z H). lia. Qed.
Lemma len_d02 z : (0 <= z < 100)%Z -> String.length (d02 z) = 2%nat.
Proof. intros H. unfold d02. rewrite len_lpad. pose proof (dec_small z H). lia. Qed.
Lemma len_tenths z : (0 <= z < 1000)%Z -> (String.length (dec (z / 10) ++ "." ++ dec (z mod 10)) <= 4)%nat.
Proof.
  intros H. assert (K : forallb (fun i => Nat.leb (String.length (dec (Z.of_nat i / 10) ++ "." ++ dec (Z.of_nat i mod 10))) 4) (seq 0 1000) = true) by (vm_compute; reflexivity).
  rewrite forallb_forall in K. specialize (K (Z.to_nat z)). rewrite in_seq, Z2Nat.id in K by lia. apply Nat.leb_le, K. lia.
Qed.
Lemma len_tenths1 z : (0 <= z < 100)%Z -> (String.length (dec (z / 10) ++ "." ++ dec (z mod 10)) = 3)%nat.
Proof.
  intros H. assert (K : forallb (fun i => Nat.eqb (String.length (dec (Z.of_nat i / 10) ++ "." ++ dec (Z.of_nat i mod 10))) 3) (seq 0 100) = true) by (vm_compute; reflexivity).
  rewrite forallb_forall in K. specialize (K (Z.to_nat z)). rewrite in_seq, Z2Nat.id in K by lia. apply Nat.eqb_eq, K. lia.
Qed.
Lemma Qlt_b_true a b : Qlt_b a b = true <-> (a < b)%Q.
Proof.
  unfold Qlt_b. destruct (Qle_bool b a) eqn:E; cbn.
  - apply Qle_bool_iff in E. split; [discriminate|]. intros H. exfalso. apply (Qlt_not_le _ _ H E).
  - split; auto. intros _. apply Qnot_le_lt. intros H. apply Qle_bool_iff in H. congruence.
Qed.
Lemma Qlt_b_false a b : Qlt_b a b = false <-> (b <= a)%Q.
Proof.
  unfold Qlt_b. rewrite negb_false_iff. apply Qle_bool_iff.
Qed.
Lemma floor_bounds q (a b : Z) : (inject_Z a <= q)%Q -> (q < inject_Z b)%Q -> (a <= Qfloor q < b)%Z.
Proof.
  intros H1 H2. split.
  - rewrite <- (Qfloor_Z a). apply Qfloor_resp_le. auto.
  - pose proof (Qfloor_le q). rewrite Zlt_Qlt. eapply Qle_lt_trans; eauto.
Qed.
Lemma tenths_bounds q (a b : Z) : (inject_Z a <= q)%Q -> (q < inject_Z b)%Q -> (10 * a <= tenths q <= 10 * b)%Z.
Proof.
  intros H1 H2. unfold tenths.
  assert (F : (10 * a <= Qfloor (10 * q) < 10 * b)%Z).
  { apply floor_bounds; rewrite inject_Z_mult; change (inject_Z 10) with 10%Q; lra. }
  destruct (Qcompare _ _); [destruct (Z.even _)| |]; lia.
Qed.
Lemma Qdiv_bounds t (c a b : Z) : (0 < c)%Z -> (inject_Z (a * c) <= t)%Q -> (t < inject_Z (b * c))%Q ->
  (inject_Z a <= t / inject_Z c)%Q /\ (t / inject_Z c < inject_Z b)%Q.
Proof.
  intros Hc H1 H2. assert (0 < inject_Z c)%Q by (rewrite <- (Zlt_Qlt 0); auto).
  rewrite inject_Z_mult in H1, H2. split.
  - apply Qle_shift_div_l; auto.
  - apply Qlt_shift_div_r; auto.
Qed.
Ltac qlra := unfold inject_Z in *; cbn in *; lra.
Ltac tcase H := match goal with |- context [Qlt_b ?a ?b] => destruct (Qlt_b a b) eqn:H; [apply Qlt_b_true in H|apply Qlt_b_false in H] end.

Definition C74_full : Prop := forall t : Q, String.length (pretty_time t) = 6%nat.

Theorem C74_six_characters_partial : forall t : Q, (t < 31536000)%Q -> String.length (pretty_time t) = 6%nat.
Proof.
  intros t HT. unfold pretty_time.
  tcase H0; [reflexivity|].
  tcase H1.
  { rewrite !len_app, len_d2, len_d02; [reflexivity| |lia]. apply floor_bounds; qlra. }
  tcase H2.
  { pose proof (Qfloor_le t). pose proof (Qlt_floor t) as K.
    rewrite inject_Z_plus in K. change (inject_Z 1) with 1%Q in K.
    rewrite !len_app, len_d2, len_d02; [reflexivity| |].
    - apply floor_bounds; qlra.
    - assert (0 <= Qfloor t < 60)%Z by (apply floor_bounds; qlra). lia. }
  tcase H3.
  { rewrite !len_app, len_d2, len_d02; [reflexivity| |].
    - pose proof (Z.mod_pos_bound (Qfloor t) 60). lia.
    - destruct (Qdiv_bounds t 60 0 60) as [A B]; [lia|qlra|qlra|].
      change (inject_Z 60) with 60%Q in *. pose proof (floor_bounds (t/60) 0 60 A B). lia. }
  tcase H4.
  { rewrite !len_app, len_d2, len_d02; [reflexivity| |].
    - pose proof (Z.mod_pos_bound (Qfloor t) 3600 ltac:(lia)) as M.
      destruct (Qdiv_bounds (inject_Z (Qfloor t mod 3600)) 60 0 60) as [A B]; [lia|rewrite <- Zle_Qle; lia|rewrite <- Zlt_Qlt; lia|].
      change (inject_Z 60) with 60%Q in *. pose proof (floor_bounds _ 0 60 A B). lia.
    - destruct (Qdiv_bounds t 3600 0 24) as [A B]; [lia|qlra|qlra|].
      change (inject_Z 3600) with 3600%Q in *. pose proof (floor_bounds _ 0 24 A B). lia. }
  tcase H5.
  { rewrite !len_app, len_d2, len_d02; [reflexivity| |].
    - pose proof (Z.mod_pos_bound (Qfloor t) 86400 ltac:(lia)) as M.
      destruct (Qdiv_bounds (inject_Z (Qfloor t mod 86400)) 3600 0 24) as [A B]; [lia|rewrite <- Zle_Qle; lia|rewrite <- Zlt_Qlt; lia|].
      change (inject_Z 3600) with 3600%Q in *. pose proof (floor_bounds _ 0 24 A B). lia.
    - destruct (Qdiv_bounds t 86400 0 99) as [A B]; [lia|qlra|qlra|].
      change (inject_Z 86400) with 86400%Q in *. pose proof (floor_bounds _ 0 99 A B). lia. }
  tcase H6; [|exfalso; lra].
  rewrite len_app, len_lpad.
  destruct (Qdiv_bounds t 2635200 0 12) as [A B]; [lia|qlra|qlra|].
  change (inject_Z 2635200) with 2635200%Q in *. pose proof (tenths_bounds _ 0 12 A B).
  pose proof (len_tenths (tenths (t / 2635200)) ltac:(lia)) as L. fold (f1 (t / 2635200)) in L. cbn [String.length]. lia.
Qed.
(** A year and more: 4 characters up to 9 years *)
Theorem C74_years_refuted : ~ C74_full /\
  forall t : Q, (31536000 <= t)%Q -> (t < 9 * 31557600)%Q -> String.length (pretty_time t) = 4%nat.
Proof.
  assert (K : forall t : Q, (31536000 <= t)%Q -> (t < 9 * 31557600)%Q -> String.length (pretty_time t) = 4%nat).
  { intros t H1 H2. unfold pretty_time. do 7 (tcase H; [exfalso; lra|clear H]).
    rewrite len_app. unfold f1.
    destruct (Qdiv_bounds t 31557600 0 9) as [A B]; [lia|qlra|qlra|].
    change (inject_Z 31557600) with 31557600%Q in *. pose proof (tenths_bounds _ 0 9 A B).
    rewrite (len_tenths1 (tenths (t / 31557600))) by lia. reflexivity. }
  split; auto. intros H. specialize (H 31536000%Q). rewrite K in H; [discriminate|lra|lra].
Qed.
(** The fields shown are the whole seconds / minutes / hours of the time *)
Theorem C74_fields : forall t : Q,
  (60 <= t -> t < 3600 -> exists m s, (0 <= m < 60 /\ 0 <= s < 60 /\ 60 * m + s = Qfloor t)%Z /\ pretty_time t = d2 m ++ "m" ++ d02 s ++ "s")%Q /\
  (3600 <= t -> t < 86400 -> exists h m s, (0 <= h < 24 /\ 0 <= m < 60 /\ 0 <= s < 60 /\ 3600 * h + 60 * m + s = Qfloor t)%Z /\ pretty_time t = d2 h ++ "h" ++ d02 m ++ "m")%Q /\
  (86400 <= t -> t < 8553600 -> exists d h s, (0 <= d < 99 /\ 0 <= h < 24 /\ 0 <= s < 3600 /\ 86400 * d + 3600 * h + s = Qfloor t)%Z /\ pretty_time t = d2 d ++ "d" ++ d02 h ++ "h")%Q.
Proof.
  assert (FD : forall t (c : positive), Qfloor (t / (Zpos c # 1)) = (Qfloor t / Zpos c)%Z).
  { intros [n d] c. unfold Qdiv, Qinv, Qmult, Qfloor. cbn. rewrite Z.mul_1_r. rewrite Pos2Z.inj_mul. symmetry. apply Z.div_div; lia. }
  assert (FZ : forall z (c : positive), Qfloor (inject_Z z / (Zpos c # 1)) = (z / Zpos c)%Z).
  { intros z c. rewrite FD, Qfloor_Z. reflexivity. }
  intros t. repeat split; intros H1 H2; unfold pretty_time.
  - do 3 (tcase H; [exfalso; lra|clear H]). tcase H; [|exfalso; lra].
    exists (Qfloor t / 60)%Z, (Qfloor t mod 60)%Z. change 60%Q with (60 # 1)%Q. rewrite FD. split; [|reflexivity].
    assert (60 <= Qfloor t < 3600)%Z by (apply floor_bounds; qlra).
    pose proof (Z.mod_pos_bound (Qfloor t) 60). pose proof (Z.div_mod (Qfloor t) 60 ltac:(lia)). 
    split; [split; [apply Z.div_pos; lia|apply Z.div_lt_upper_bound; lia]|lia].
  - do 4 (tcase H; [exfalso; lra|clear H]). tcase H; [|exfalso; lra].
    exists (Qfloor t / 3600)%Z, ((Qfloor t mod 3600) / 60)%Z, ((Qfloor t mod 3600) mod 60)%Z.
    change 3600%Q with (3600 # 1)%Q. change 60%Q with (60 # 1)%Q. rewrite FD, FZ. split; [|reflexivity].
    assert (3600 <= Qfloor t < 86400)%Z by (apply floor_bounds; qlra).
    pose proof (Z.mod_pos_bound (Qfloor t) 3600 ltac:(lia)). pose proof (Z.div_mod (Qfloor t) 3600 ltac:(lia)).
    pose proof (Z.mod_pos_bound (Qfloor t mod 3600) 60 ltac:(lia)). pose proof (Z.div_mod (Qfloor t mod 3600) 60 ltac:(lia)).
    split; [split; [apply Z.div_pos; lia|apply Z.div_lt_upper_bound; lia]|].
    split; [split; [apply Z.div_pos; lia|apply Z.div_lt_upper_bound; lia]|lia].
  - do 5 (tcase H; [exfalso; lra|clear H]). tcase H; [|exfalso; lra].
    exists (Qfloor t / 86400)%Z, ((Qfloor t mod 86400) / 3600)%Z, ((Qfloor t mod 86400) mod 3600)%Z.
    change 86400%Q with (86400 # 1)%Q. change 3600%Q with (3600 # 1)%Q. rewrite FD, FZ. split; [|reflexivity].
    assert (86400 <= Qfloor t < 8553600)%Z by (apply floor_bounds; qlra).
    pose proof (Z.mod_pos_bound (Qfloor t) 86400 ltac:(lia)). pose proof (Z.div_mod (Qfloor t) 86400 ltac:(lia)).
    pose proof (Z.mod_pos_bound (Qfloor t mod 86400) 3600 ltac:(lia)). pose proof (Z.div_mod (Qfloor t mod 86400) 3600 ltac:(lia)).
    split; [split; [apply Z.div_pos; lia|apply Z.div_lt_upper_bound; lia]|].
    split; [split; [apply Z.div_pos; lia|apply Z.div_lt_upper_bound; lia]|lia].
Qed.
Example C74_nonvacuous : pretty_time 612 = "10m12s" /\ pretty_time (1 # 4) = " 0.25s" /\ pretty_time 40000000 = "1.3y".
Proof. repeat split; vm_compute; reflexivity. Qed.

(** ** C75 *)
Section Plane.
  Variable A : Type.
  Variable norm : string -> string.
  Lemma put_same (f : fs A) n a : put A f n a n = Some a.
  Proof. unfold put. now rewrite String.eqb_refl. Qed.
  Lemma put_other (f : fs A) n m a : m <> n -> put A f n a m = f m.
  Proof. unfold put. intros H. destruct (String.eqb_spec m n); congruence. Qed.
  Lemma app_inj b s t : b ++ s = b ++ t -> s = t.
  Proof. induction b as [|c b IH]; cbn; auto. intros H. injection H. auto. Qed.
  Lemma app_neq b s t : s <> t -> b ++ s <> b ++ t.
  Proof. intros H E. apply H. eapply app_inj; eauto. Qed.
  (** the four arrays seen under a base name *)
  Definition plane_of (b : string) (f : fs A) (p : A * A * A * A) : Prop :=
    let '(x, y, u, v) := p in
    f (norm b ++ "x.npy") = Some x /\ f (norm b ++ "y.npy") = Some y /\ f (norm b ++ "u.npy") = Some u /\ f (norm b ++ "v.npy") = Some v.
  Ltac puts := repeat first [rewrite put_same | rewrite put_other by (apply app_neq; discriminate)].
  Theorem C75_round_trip : forall (div : option (A -> A)) x y u v base (f : fs A),
    loadPlane A norm base (savePlane A norm div x y u v base f) =
    Some (x, y, match div with Some d => d u | None => u end, match div with Some d => d v | None => v end).
  Proof.
    intros. unfold loadPlane, savePlane, savePlane_writes, exec. cbn [fold_left fst snd]. puts. reflexivity.
  Qed.
  (** other files are not touched *)
  Theorem C75_other_files : forall div x y u v base (f : fs A) n,
    n <> norm base ++ "x.npy" -> n <> norm base ++ "y.npy" -> n <> norm base ++ "u.npy" -> n <> norm base ++ "v.npy" ->
    savePlane A norm div x y u v base f n = f n.
  Proof.
    intros. unfold savePlane, savePlane_writes, exec. cbn [fold_left fst snd]. rewrite !put_other by assumption. reflexivity.
  Qed.
  (** the last save under a name wins *)
  Theorem C75_last_save_wins : forall div x y u v base div' x' y' u' v' (f : fs A),
    loadPlane A norm base (savePlane A norm div' x' y' u' v' base (savePlane A norm div x y u v base f)) =
    loadPlane A norm base (savePlane A norm div' x' y' u' v' base f).
  Proof. intros. rewrite !C75_round_trip. reflexivity. Qed.

  Definition C75_atomic : Prop := forall k div x y u v base (f : fs A) old, loadPlane A norm base f = Some old ->
    loadPlane A norm base (savePlane_crash A norm k div x y u v base f) = Some old \/
    loadPlane A norm base (savePlane_crash A norm k div x y u v base f) = loadPlane A norm base (savePlane A norm div x y u v base f).
  (** a crash after the first write leaves the new x with the old y, u, v *)
  Theorem C94_crash_refuted : forall a b : A, a <> b -> ~ C75_atomic.
  Proof.
    intros a b Hab H.
    set (f := savePlane A norm None a a a a "" (fun _ => None)).
    assert (E : loadPlane A norm "" f = Some (a, a, a, a)) by apply C75_round_trip.
    specialize (H 1%nat None b b b b "" f _ E). rewrite C75_round_trip in H.
    unfold savePlane_crash, savePlane_writes, exec in H. cbn [firstn fold_left fst snd] in H.
    unfold loadPlane in H. revert H. puts. unfold f, savePlane, savePlane_writes, exec. cbn [fold_left fst snd]. puts.
    intros [H|H]; injection H; congruence.
  Qed.
  (** what a crash can leave: a prefix of the new arrays followed by the old ones, and the
      first save under a name never loads as a complete plane until the last write *)
  Theorem C94_crash_states_partial : forall k div x y u v base (f : fs A) xo yo uo vo,
    loadPlane A norm base f = Some (xo, yo, uo, vo) ->
    let u' := match div with Some d => d u | None => u end in
    let v' := match div with Some d => d v | None => v end in
    exists p, loadPlane A norm base (savePlane_crash A norm k div x y u v base f) = Some p /\
      In p [(xo, yo, uo, vo); (x, yo, uo, vo); (x, y, uo, vo); (x, y, u', vo); (x, y, u', v')].
  Proof.
    intros k div x y u v base f xo yo uo vo H u' v'. unfold loadPlane in *.
    destruct (f (norm base ++ "x.npy")) eqn:EX; [|discriminate]. destruct (f (norm base ++ "y.npy")) eqn:EY; [|discriminate].
    destruct (f (norm base ++ "u.npy")) eqn:EU; [|discriminate]. destruct (f (norm base ++ "v.npy")) eqn:EV; [|discriminate].
    injection H; intros; subst.
    unfold savePlane_crash, savePlane_writes, exec.
    destruct k as [|[|[|[|k]]]]; cbn [firstn fold_left fst snd];
      try replace (firstn k []) with (@nil (string * A)) by (destruct k; reflexivity); cbn [fold_left];
      puts; rewrite ?EX, ?EY, ?EU, ?EV; eexists; (split; [reflexivity|]); cbn; auto 8.
  Qed.
  Theorem C94_first_save_crash_partial : forall k div x y u v base (f : fs A),
    f (norm base ++ "v.npy") = None -> (k < 4)%nat ->
    loadPlane A norm base (savePlane_crash A norm k div x y u v base f) = None.
  Proof.
    intros k div x y u v base f EV Hk. unfold loadPlane, savePlane_crash, savePlane_writes, exec.
    destruct k as [|[|[|[|k]]]]; [| | | |lia]; cbn [firstn fold_left fst snd]; puts; rewrite EV;
      repeat match goal with |- context [match ?c with _ => _ end] => destruct c end; reflexivity.
  Qed.
End Plane.
Example C75_nonvacuous : exists (f : fs nat) p, loadPlane nat (fun s => s) "run" f = Some p /\ (0%nat <> 1%nat).
Proof.
  exists (savePlane nat (fun s => s) None 1%nat 2%nat 3%nat 4%nat "run" (fun _ => None)). eexists.
  split; [apply C75_round_trip|discriminate].
Qed.
