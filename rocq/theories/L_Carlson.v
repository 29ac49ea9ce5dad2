(** * The Carlson loops of elliptic.py on finite numbers: the extended-real run is the real run *)
From Coq Require Import ZArith List Bool Arith Lia Reals Lra Psatz.
From Verif Require Import Num NumR NumX M_Elliptic L_List L_X.
Import ListNotations.
Local Open Scope R_scope.
Local Notation len := List.length.

Notation R3t := (R * R * R)%type.
Definition F2 (p : R * R) : X * X := (Fin (fst p), Fin (snd p)).
Definition F3 (p : R3t) : X * X * X := (Fin (fst (fst p)), Fin (snd (fst p)), Fin (snd p)).
Definition F4 (p : R3t * R) : X * X * X * X := (F3 (fst p), Fin (snd p)).

Ltac tt := change (T XN) with X in *; change (T RN) with R in *.
Lemma amax_lift (l : list R) : l <> [] -> amax (N := XN) (map Fin l) = Fin (amax (N := RN) l).
Proof.
  destruct l as [|a l]; [congruence|]. intros _. cbn [map amax]. revert a.
  induction l as [|b l IH]; intros a; cbn [map fold_left]; [reflexivity|].
  change (nmax XN (Fin a) (Fin b)) with (Fin (Rmax a b)). rewrite IH. reflexivity.
Qed.
Lemma resid_lift (a b : list R) : a <> [] -> len a = len b -> resid (N := XN) (map Fin a) (map Fin b) = Fin (resid (N := RN) a b).
Proof.
  intros H L. unfold resid. nT.
  assert (E : map2 (fun x y : X => xabs (xsub x y)) (map Fin a) (map Fin b) = map Fin (map2 (fun x y : R => Rabs (x - y)) a b)).
  { apply map2_fin. intros; reflexivity. }
  change (map2 (fun x y : X => nabs XN (nsub XN x y)) (map Fin a) (map Fin b)) with (map2 (fun x y : X => xabs (xsub x y)) (map Fin a) (map Fin b)).
  rewrite E. rewrite amax_lift; [reflexivity|]. destruct a, b; try congruence; cbn [map2 List.length] in *; congruence.
Qed.
Lemma lam3_lift x y z : 0 <= x -> 0 <= y -> 0 <= z -> lam3 (N := XN) (Fin x) (Fin y) (Fin z) = Fin (lam3 (N := RN) x y z) /\ 0 <= lam3 (N := RN) x y z.
Proof.
  intros hx hy hz. unfold lam3. xn. rewrite !xsqrt_fin by (apply Rmult_le_pos; lra). split; [reflexivity|].
  pose proof (sqrt_pos (x * y)). pose proof (sqrt_pos (x * z)). pose proof (sqrt_pos (y * z)). lra.
Qed.
Definition ok3 (p : R3t) : Prop := let '(x, y, z) := p in 0 <= x /\ 0 <= y /\ 0 < z.
Lemma rf_val_lift p : ok3 p -> rf_val (N := XN) (F3 p) = Fin (rf_val (N := RN) p).
Proof.
  destruct p as [[x y] z]. intros (hx & hy & hz). unfold rf_val, F3. cbn [fst snd]. xn.
  rewrite !(xdiv_fin _ 3) by lra. assert (0 < (x + y + z) / 3) by lra. set (mu := (x + y + z) / 3) in *.
  rewrite !(xdiv_fin _ mu) by lra. xn. repeat (progress (rewrite xdiv_fin by lra; xn)). rewrite xpow_fin by auto. reflexivity.
Qed.
Lemma rf_next_ok p : ok3 p -> ok3 (rf_next (N := RN) p).
Proof.
  destruct p as [[x y] z]. intros (hx & hy & hz). unfold rf_next. destruct (lam3_lift x y z) as [_ H]; try lra. unfold ok3. xn.
  change (T RN) with R in *. set (l := lam3 (N := RN) x y z) in *. lra.
Qed.
Lemma rf_next_lift p : ok3 p -> rf_next (N := XN) (F3 p) = F3 (rf_next (N := RN) p).
Proof.
  destruct p as [[x y] z]. intros (hx & hy & hz). unfold rf_next, F3. cbn [fst snd]. destruct (lam3_lift x y z) as [E H]; try lra.
  rewrite E. xn. rewrite !xdiv_fin by lra. reflexivity.
Qed.
Lemma map_lift_loop {A B C D} (f : A -> B) (g : C -> D) (i : C -> A) (j : D -> B) (l : list C) :
  (forall c, In c l -> f (i c) = j (g c)) -> map f (map i l) = map j (map g l).
Proof. intros H. rewrite !map_map. apply map_ext_in. auto. Qed.
Lemma rf_loop_lift (tol : R) fuel : forall res (st : list R3t) RFo, Forall ok3 st -> st <> [] -> len RFo = len st ->
  rf_loop (N := XN) (Fin tol) fuel (Fin res) (map F3 st) (map Fin RFo) = map Fin (rf_loop (N := RN) tol fuel res st RFo).
Proof.
  induction fuel as [|fuel IH]; intros res st RFo OK NE L; cbn [rf_loop]; [reflexivity|].
  xn. destruct (Rltb _ res); [|reflexivity].
  rewrite (map_lift_loop (rf_val (N := XN)) (rf_val (N := RN)) F3 Fin) by (rewrite Forall_forall in OK; intros; apply rf_val_lift; auto).
  rewrite (map_lift_loop (rf_next (N := XN)) (rf_next (N := RN)) F3 F3) by (rewrite Forall_forall in OK; intros; apply rf_next_lift; auto).
  tt. rewrite resid_lift.
  - apply IH; [|destruct st; cbn; congruence|rewrite !map_length; auto].
    rewrite Forall_map. eapply Forall_impl; [|exact OK]. intros; apply rf_next_ok; auto.
  - destruct st; cbn; congruence.
  - rewrite map_length; auto.
Qed.
Lemma RF_lift (tol : R) itmax (y : list R) : y <> [] -> Forall (fun y => 0 <= y) y -> RF_tol (N := XN) (Fin tol) itmax (map Fin y) = map Fin (RF_tol (N := RN) tol itmax y).
Proof.
  intros NE H. unfold RF_tol. rewrite map_map, map_map. nT.
  change (map (fun x : R => (nZ XN 0, Fin x, nZ XN 1)) y) with (map (fun x : R => F3 (0, x, 1)) y). rewrite <- (map_map (fun x => (0, x, 1)) F3).
  change (map (fun _ : R => nZ XN 0) y) with (map (fun _ : R => Fin 0) y). rewrite <- (map_map (fun _ => 0) Fin).
  apply rf_loop_lift; [|destruct y; cbn; congruence|rewrite !map_length; auto].
  rewrite Forall_map. eapply Forall_impl; [|exact H]. intros a Ha. cbn. cbn in Ha. lra.
Qed.
(** RC *)
Definition ok2 (p : R * R) : Prop := 0 <= fst p /\ 0 < snd p.
Lemma rc_val_lift p : ok2 p -> rc_val (N := XN) (F2 p) = Fin (rc_val (N := RN) p).
Proof.
  destruct p as [x y]. intros [hx hy]. cbn [fst snd] in *. unfold rc_val, F2. cbn [fst snd]. xn.
  rewrite !(xdiv_fin _ 3) by lra. assert (0 < (x + 2 * y) / 3) by lra. set (mu := (x + 2 * y) / 3) in *. xn.
  repeat (progress (rewrite xdiv_fin by lra; xn)). rewrite xpow_fin by auto. reflexivity.
Qed.
Lemma rc_next_ok p : ok2 p -> ok2 (rc_next (N := RN) p).
Proof.
  destruct p as [x y]. intros [hx hy]. unfold ok2, rc_next in *. cbn [fst snd] in *. xn. pose proof (sqrt_pos (x * y)). lra.
Qed.
Lemma rc_next_lift p : ok2 p -> rc_next (N := XN) (F2 p) = F2 (rc_next (N := RN) p).
Proof.
  destruct p as [x y]. intros [hx hy]. unfold rc_next, F2. cbn [fst snd] in *. xn.
  rewrite xsqrt_fin by (apply Rmult_le_pos; lra). xn. rewrite !xdiv_fin by lra. reflexivity.
Qed.
Lemma rc_loop_lift (tol : R) fuel : forall res (st : list (R * R)) RCo, Forall ok2 st -> st <> [] -> len RCo = len st ->
  rc_loop (N := XN) (Fin tol) fuel (Fin res) (map F2 st) (map Fin RCo) = map Fin (rc_loop (N := RN) tol fuel res st RCo).
Proof.
  induction fuel as [|fuel IH]; intros res st RFo OK NE L; cbn [rc_loop]; [reflexivity|].
  xn. destruct (Rltb _ res); [|reflexivity].
  rewrite (map_lift_loop (rc_val (N := XN)) (rc_val (N := RN)) F2 Fin) by (rewrite Forall_forall in OK; intros; apply rc_val_lift; auto).
  rewrite (map_lift_loop (rc_next (N := XN)) (rc_next (N := RN)) F2 F2) by (rewrite Forall_forall in OK; intros; apply rc_next_lift; auto).
  tt. rewrite resid_lift.
  - apply IH; [|destruct st; cbn; congruence|rewrite !map_length; auto].
    rewrite Forall_map. eapply Forall_impl; [|exact OK]. intros; apply rc_next_ok; auto.
  - destruct st; cbn; congruence.
  - rewrite map_length; auto.
Qed.
Lemma RC_lift (tol : R) itmax (l : list (R * R)) : l <> [] -> Forall ok2 l -> RC_tol (N := XN) (Fin tol) itmax (map F2 l) = map Fin (RC_tol (N := RN) tol itmax l).
Proof.
  intros NE H. unfold RC_tol. rewrite map_map. nT.
  change (map (fun _ : R * R => nZ XN 0) l) with (map (fun _ : R * R => Fin 0) l). rewrite <- (map_map (fun _ => 0) Fin).
  apply rc_loop_lift; auto. rewrite map_length; auto.
Qed.
(** RJ *)
Definition ok4 (p : R3t * R) : Prop := ok3 (fst p) /\ 0 < snd p.
Lemma rj_ab_lift p : ok4 p -> rj_alfa_bet (N := XN) (F4 p) = F2 (rj_alfa_bet (N := RN) p) /\ ok2 (rj_alfa_bet (N := RN) p).
Proof.
  destruct p as [[[x y] z] rho]. intros [(hx & hy & hz) hr]. unfold rj_alfa_bet, F4, F3, F2. cbn [fst snd] in *.
  destruct (lam3_lift x y z) as [E H]; try lra. rewrite E. xn. rewrite !xsqrt_fin by (repeat apply Rmult_le_pos; lra). split; [reflexivity|].
  unfold ok2. cbn [fst snd]. change (T RN) with R in *. set (l := lam3 (N := RN) x y z) in *. split.
  - match goal with |- 0 <= ?a * ?a => pose proof (Rle_0_sqr a); unfold Rsqr in *; lra end.
  - apply Rmult_lt_0_compat; auto. apply Rmult_lt_0_compat; lra.
Qed.
Lemma rj_next_ok p : ok4 p -> ok4 (rj_next (N := RN) p).
Proof.
  destruct p as [[[x y] z] rho]. intros [(hx & hy & hz) hr]. unfold rj_next. destruct (lam3_lift x y z) as [_ H]; try lra.
  unfold ok4, ok3. cbn [fst snd] in *. xn. change (T RN) with R in *. set (l := lam3 (N := RN) x y z) in *. lra.
Qed.
Lemma rj_next_lift p : ok4 p -> rj_next (N := XN) (F4 p) = F4 (rj_next (N := RN) p).
Proof.
  destruct p as [[[x y] z] rho]. intros [(hx & hy & hz) hr]. unfold rj_next, F4, F3. cbn [fst snd] in *.
  destruct (lam3_lift x y z) as [E H]; try lra. rewrite E. xn. rewrite !xdiv_fin by lra. reflexivity.
Qed.
Lemma rj_rhs2_lift n p : ok4 p -> rj_rhs2 (N := XN) n (F4 p) = Fin (rj_rhs2 (N := RN) n p).
Proof.
  destruct p as [[[x y] z] rho]. intros [(hx & hy & hz) hr]. unfold rj_rhs2, F4, F3. cbn [fst snd] in *. xn.
  rewrite !(xdiv_fin _ 5) by lra. assert (0 < (x + y + z + 2 * rho) / 5) by lra. set (mu := (x + y + z + 2 * rho) / 5) in *.
  rewrite !(xdiv_fin _ mu) by lra. xn. repeat (progress (rewrite xdiv_fin by lra; xn)). rewrite xpow_fin by auto. reflexivity.
Qed.
Lemma rj_rhs1_lift (tol : R) itmax n st r1 : Forall ok4 st -> st <> [] -> rj_rhs1 (N := XN) (Fin tol) itmax n (map F4 st) (map Fin r1) = map Fin (rj_rhs1 (N := RN) tol itmax n st r1).
Proof.
  intros OK NE. unfold rj_rhs1. rewrite (map_lift_loop (rj_alfa_bet (N := XN)) (rj_alfa_bet (N := RN)) F4 F2) by (rewrite Forall_forall in OK; intros; apply rj_ab_lift; auto).
  rewrite RC_lift.
  - apply map2_fin. intros. reflexivity.
  - destruct st; cbn; congruence.
  - rewrite Forall_map. eapply Forall_impl; [|exact OK]. intros; apply rj_ab_lift; auto.
Qed.
Lemma rj_rhs1_len (tol : R) itmax n (st : list (R3t * R)) (r1 : list R) : len r1 = len st -> len (rj_rhs1 (N := RN) tol itmax n st r1) = len st.
Proof. intros H. unfold rj_rhs1. rewrite map2_length, RC_tol_length, map_length. tt. lia. Qed.
Lemma rj_loop_lift (tol : R) itmax fuel : forall n res (st : list (R3t * R)) r1 RJo, Forall ok4 st -> st <> [] -> len r1 = len st -> len RJo = len st ->
  rj_loop (N := XN) (Fin tol) itmax fuel n (Fin res) (map F4 st) (map Fin r1) (map Fin RJo) = map Fin (rj_loop (N := RN) tol itmax fuel n res st r1 RJo).
Proof.
  induction fuel as [|fuel IH]; intros n res st r1 RJo OK NE L1 L; cbn [rj_loop]; [reflexivity|].
  xn. destruct (Rltb _ res); [|reflexivity].
  rewrite rj_rhs1_lift by auto. pose proof (rj_rhs1_len tol itmax n st r1 L1) as L2.
  rewrite (map_lift_loop (rj_rhs2 (N := XN) n) (rj_rhs2 (N := RN) n) F4 Fin) by (rewrite Forall_forall in OK; intros; apply rj_rhs2_lift; auto).
  rewrite (map_lift_loop (rj_next (N := XN)) (rj_next (N := RN)) F4 F4) by (rewrite Forall_forall in OK; intros; apply rj_next_lift; auto).
  rewrite (map2_fin (fun a b => nadd XN a b) Rplus) by reflexivity.
  assert (L3 : len (map2 Rplus (rj_rhs1 (N := RN) tol itmax n st r1) (map (rj_rhs2 (N := RN) n) st)) = len st).
  { rewrite map2_length, map_length. change (T RN) with R in *. lia. }
  rewrite resid_lift.
  - apply IH; auto.
    + rewrite Forall_map. eapply Forall_impl; [|exact OK]. intros; apply rj_next_ok; auto.
    + destruct st; cbn; congruence.
    + rewrite map_length; auto.
    + rewrite map_length; auto.
  - destruct st; [congruence|]. intros E. apply (f_equal (@List.length _)) in E. change (T RN) with R in *. rewrite L3 in E. discriminate.
  - change (T RN) with R in *. lia.
Qed.
Lemma gather_map_ext {A B} (t : A -> bool) (f : A -> B) l : gather (map t l) (map f l) = map f (filter t l).
Proof. rewrite gather_map, gather_map_filter. reflexivity. Qed.
Lemma rj_loop_nil {N : Num} tol itmax fuel n res (r1 : list N) RJo : len RJo = 0%nat -> rj_loop tol itmax fuel n res [] r1 RJo = [].
Proof.
  intros H. assert (E : len (rj_loop tol itmax fuel n res [] r1 RJo) = 0%nat).
  { revert n res r1 RJo H. induction fuel as [|fuel IH]; intros n res r1 RJo H; cbn [rj_loop]; auto. destruct (nlt N tol res); auto.
    apply IH. rewrite map2_length. cbn. lia. }
  destruct (rj_loop tol itmax fuel n res [] r1 RJo); [auto|discriminate].
Qed.
(** the run on the entries with rho > 0 *)
Definition RJsel (tol : R) (itmax : nat) (yr : list (R * R)) : list R :=
  let sel := map (fun p => ((0, fst p, 1), snd p)) (filter (fun p => Rltb 0 (snd p)) yr) in
  let z0 := map (fun _ => 0) sel in rj_loop (N := RN) tol itmax itmax 0 1 sel z0 z0.
Lemma RJ_lift (tol : R) itmax (yr : list (R * R)) : Forall (fun p => 0 <= fst p) yr ->
  RJ_tol (N := XN) (Fin tol) itmax (map F2 yr) = scatter (map (fun p => Rltb 0 (snd p)) yr) (map Fin (RJsel tol itmax yr)) (map (fun _ => PInf) yr).
Proof.
  intros H. unfold RJ_tol. rewrite !map_map. tt. cbn [snd fst F2].
  change (map (fun x : R * R => nlt XN (nZ XN 0) (Fin (snd x))) yr) with (map (fun p : R * R => Rltb 0 (snd p)) yr).
  rewrite gather_map_ext. f_equal.
  change (map (fun x : R * R => (nZ XN 0, Fin (fst x), nZ XN 1, Fin (snd x))) (filter (fun p : R * R => Rltb 0 (snd p)) yr))
    with (map (fun x : R * R => F4 ((0, fst x, 1), snd x)) (filter (fun p : R * R => Rltb 0 (snd p)) yr)).
  rewrite <- (map_map (fun x : R * R => ((0, fst x, 1), snd x)) F4). unfold RJsel.
  set (sel := map (fun p => ((0, fst p, 1), snd p)) (filter (fun p => Rltb 0 (snd p)) yr)).
  rewrite map_map. change (map (fun _ : R3t * R => nZ XN 0) sel) with (map (fun _ : R3t * R => Fin 0) sel). rewrite <- (map_map (fun _ => 0) Fin).
  assert (D : sel = [] \/ sel <> []) by (destruct sel; [left|right]; congruence).
  destruct D as [E|NE].
  - rewrite E. cbn [map]. rewrite (rj_loop_nil (N := XN)) by reflexivity. rewrite (rj_loop_nil (N := RN)) by reflexivity. reflexivity.
  - change (nZ XN 1) with (Fin 1). rewrite (rj_loop_lift _ _ _ _ 1 sel); auto; rewrite ?map_length; auto.
    apply Forall_forall. intros p Hp. unfold sel in Hp. apply in_map_iff in Hp. destruct Hp as (q & <- & Hq). apply filter_In in Hq. destruct Hq as [I T0].
    rewrite Forall_forall in H. apply Rltb_true in T0. unfold ok4, ok3. cbn [fst snd]. specialize (H q I). cbn in H. lra.
Qed.
Lemma RJsel_len tol itmax yr : len (RJsel tol itmax yr) = len (filter (fun p => Rltb 0 (snd p)) yr).
Proof.
  unfold RJsel. set (sel := map _ (filter _ yr)). assert (L : len sel = len (filter (fun p : R * R => Rltb 0 (snd p)) yr)) by apply map_length.
  rewrite <- L. apply (rj_loop_length (N := RN)); apply map_length.
Qed.
Lemma scatter_Forall2 {A B} (t : A -> bool) (Q : A -> B -> Prop) (P : A -> B -> Prop) (vals : list B) (g : A -> B) (l : list A) :
  Forall2 P (filter t l) vals -> (forall a v, t a = true -> P a v -> Q a v) -> (forall a, t a = false -> Q a (g a)) ->
  Forall2 Q l (scatter (map t l) vals (map g l)).
Proof.
  intros HF HT HN. revert vals HF. induction l as [|a l IH]; intros vals HF; cbn [map scatter filter] in *; [constructor|].
  destruct (t a) eqn:E; cbn [scatter map].
  - inversion HF as [|x y l1 l2 P1 P2]; subst. constructor; auto.
  - constructor; auto.
Qed.
Lemma map2_Forall2 {A B C} (f : A -> B -> C) (P : A -> B -> Prop) (Q : A -> C -> Prop) l m :
  Forall2 P l m -> (forall a b, P a b -> Q a (f a b)) -> Forall2 Q l (map2 f l m).
Proof. intros H I. induction H; cbn [map2]; constructor; auto. Qed.
Lemma Forall2_true {A B} (l : list A) (m : list B) : len l = len m -> Forall2 (fun _ _ => True) l m.
Proof. revert m. induction l as [|a l IH]; intros [|b m] H; try discriminate; constructor; auto. Qed.
(** finite for n<1; +inf for n>=1 *)
Lemma Pi_tol_finite (tol : R) itmax (l : list (R * R)) : Forall (fun p => snd p <= 1) l ->
  Forall2 (fun p v => (fst p < 1 -> exists q, v = Fin q) /\ (1 <= fst p -> v = PInf)) l (Pi_tol (N := XN) (Fin tol) itmax (map F2 l)).
Proof.
  intros H. destruct l as [|p0 l0] eqn:EL; [constructor|]. rewrite <- EL in *.
  assert (NE : l <> []) by (rewrite EL; congruence).
  assert (EC : Pi_tol (N := XN) (Fin tol) itmax (map F2 l) =
    map2 (fun rf q => nadd XN rf q) (RF_tol (N := XN) (Fin tol) itmax (map (fun p => nsub XN (nZ XN 1) (snd p)) (map F2 l)))
       (map2 (fun p rj => nmul XN (nmul XN (nQ XN 1 3) (fst p)) rj) (map F2 l) (RJ_tol (N := XN) (Fin tol) itmax (map (fun p => (nsub XN (nZ XN 1) (snd p), nsub XN (nZ XN 1) (fst p))) (map F2 l))))).
  { rewrite EL. reflexivity. }
  rewrite EC. clear EC. rewrite !map_map. tt. cbn [fst snd F2].
  change (map (fun x : R * R => nsub XN (nZ XN 1) (Fin (snd x))) l) with (map (fun x : R * R => Fin (1 - snd x)) l). rewrite <- (map_map (fun x : R * R => 1 - snd x) Fin).
  change (map (fun x : R * R => (nsub XN (nZ XN 1) (Fin (snd x)), nsub XN (nZ XN 1) (Fin (fst x)))) l) with (map (fun x : R * R => F2 (1 - snd x, 1 - fst x)) l).
  rewrite <- (map_map (fun x : R * R => (1 - snd x, 1 - fst x)) F2).
  rewrite RF_lift; [|rewrite EL; cbn; congruence|rewrite Forall_map; eapply Forall_impl; [|exact H]; cbn; intros; lra].
  assert (J : Forall2 (fun (p : R * R) v => (fst p < 1 -> exists q, v = Fin q) /\ (1 <= fst p -> v = PInf)) l (RJ_tol (N := XN) (Fin tol) itmax (map F2 (map (fun x : R * R => (1 - snd x, 1 - fst x)) l)))).
  { rewrite RJ_lift by (rewrite Forall_map; eapply Forall_impl; [|exact H]; cbn; intros; lra).
    pose proof (RJsel_len tol itmax (map (fun x : R * R => (1 - snd x, 1 - fst x)) l)) as LL. revert LL. generalize (RJsel tol itmax (map (fun x : R * R => (1 - snd x, 1 - fst x)) l)). intros RJs LL.
    rewrite !map_map. cbn [snd]. apply (scatter_Forall2 (fun x : R * R => Rltb 0 (1 - fst x)) _ (fun _ v => exists q, v = Fin q)).
    - assert (L2 : len (filter (fun x : R * R => Rltb 0 (1 - fst x)) l) = len RJs).
      { rewrite LL. clear. induction l as [|a l IH]; [reflexivity|]. cbn [map filter snd fst]. destruct (Rltb 0 (1 - fst a)); cbn [List.length]; rewrite IH; reflexivity. }
      clear LL. revert L2. generalize (filter (fun x : R * R => Rltb 0 (1 - fst x)) l). intros fl; revert RJs. induction fl as [|a fl IH]; intros [|b bs] L2; try discriminate; cbn [map]; constructor; eauto.
    - intros a v E [q Hq]. apply Rltb_true in E. split; [eauto|lra].
    - intros a E. apply Rltb_false in E. split; [lra|auto]. }
  pose proof (RF_tol_length (N := RN) tol itmax (map (fun x : R * R => 1 - snd x) l)) as LRF. rewrite map_length in LRF. tt.
  revert LRF J. generalize (RF_tol (N := RN) tol itmax (map (fun x : R * R => 1 - snd x) l)).
  generalize (RJ_tol (N := XN) (Fin tol) itmax (map F2 (map (fun x : R * R => (1 - snd x, 1 - fst x)) l))). clear. tt.
  induction l as [|[n m] l IH]; intros vs rfs LRF J; inversion J as [|x y l1 l2 P1 P2]; subst; cbn [map map2]; [destruct rfs; constructor|].
  destruct rfs as [|rf rfs]; [discriminate|]. cbn [map map2]. constructor; [|apply IH; auto].
  clear -P1. cbn [fst snd F2] in *. destruct P1 as [A B]. split; intros Hn.
  - destruct (A Hn) as [q ->]. xn. eexists; reflexivity.
  - rewrite (B Hn). xn. unfold xinf_mul. rewrite (proj2 (Rltb_true 0 (1 / 3 * n))) by lra. reflexivity.
Qed.
(** the code's constant as a real number *)
Definition RESr : R := 1 / 1000000000000.
Lemma RES_fin : RES (N := XN) = Fin RESr.
Proof. reflexivity. Qed.
Theorem Pi_finite (l : list (R * R)) : Forall (fun p => snd p <= 1) l ->
  Forall2 (fun p v => (fst p < 1 -> exists q, v = Fin q) /\ (1 <= fst p -> v = PInf)) l (ellipticPiCarlson (N := XN) (map F2 l)).
Proof. unfold ellipticPiCarlson. rewrite RES_fin. apply Pi_tol_finite. Qed.
Lemma Forall2_impl {A B} (P Q : A -> B -> Prop) l m : (forall a b, P a b -> Q a b) -> Forall2 P l m -> Forall2 Q l m.
Proof. intros H K. induction K; constructor; auto. Qed.
Lemma Forall2_in {A B} (P Q : A -> B -> Prop) l m : (forall a b, In a l -> P a b -> Q a b) -> Forall2 P l m -> Forall2 Q l m.
Proof. intros H K. induction K; constructor; [apply H; auto; left; auto|apply IHK; intros; apply H; auto; right; auto]. Qed.
Lemma Forall2_nth {A B} (P : A -> B -> Prop) l m i a b : Forall2 P l m -> nth_error l i = Some a -> nth_error m i = Some b -> P a b.
Proof.
  intros H. revert i. induction H; intros [|i] Ha Hb; cbn in *; try discriminate; [congruence|eauto].
Qed.
