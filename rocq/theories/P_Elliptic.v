(** * C41-C43: the elliptic integral of the third kind (wiz/elliptic.py) *)
From Coquelicot Require Import Coquelicot.
From Coq Require Import ZArith List Bool Arith Lia Reals Lra Psatz.
From Verif Require Import Num NumR NumX M_Elliptic L_List L_X L_Carlson Spec SpecBS L_Calc L_Gen L_Dupl L_Ell L_Dupl2 L_Dupl3 L_Dupl4.
Import ListNotations.
Local Open Scope R_scope.
Local Notation len := List.length.

(** ** C41: shape and number of iterations *)
(** [k] iterations of the RJ loop without the stopping test *)
Fixpoint rj_run {N : Num} (tol : N) (itmax k n : nat) (st : list (N * N * N * N)) (r1 o : list N) : list N :=
  match k with
  | O => o
  | S k => let r1' := rj_rhs1 tol itmax n st r1 in
           rj_run tol itmax k (S n) (map rj_next st) r1' (map2 (fun a b => nadd N a b) r1' (map (rj_rhs2 n) st))
  end.
Lemma rf_loop_iter {N : Num} (tol : N) fuel : forall res st o, fuel = 0%nat \/ nlt N tol res = false \/
  exists k, (k < fuel)%nat /\ rf_loop tol fuel res st o = map (fun p => rf_val (itn k rf_next p)) st.
Proof.
  induction fuel as [|fuel IH]; intros res st o; cbn [rf_loop]; [auto|]. destruct (nlt N tol res); [|auto]. right. right.
  destruct (IH (resid (map rf_val st) o) (map rf_next st) (map rf_val st)) as [E|[E|(k & hk & E)]].
  - exists 0%nat. split; [lia|]. subst fuel. reflexivity.
  - exists 0%nat. split; [lia|]. destruct fuel; cbn [rf_loop]; [reflexivity|]. rewrite E. reflexivity.
  - exists (S k). split; [lia|]. rewrite E, map_map. reflexivity.
Qed.
Lemma rc_loop_iter {N : Num} (tol : N) fuel : forall res st o, fuel = 0%nat \/ nlt N tol res = false \/
  exists k, (k < fuel)%nat /\ rc_loop tol fuel res st o = map (fun p => rc_val (itn k rc_next p)) st.
Proof.
  induction fuel as [|fuel IH]; intros res st o; cbn [rc_loop]; [auto|]. destruct (nlt N tol res); [|auto]. right. right.
  destruct (IH (resid (map rc_val st) o) (map rc_next st) (map rc_val st)) as [E|[E|(k & hk & E)]].
  - exists 0%nat. split; [lia|]. subst fuel. reflexivity.
  - exists 0%nat. split; [lia|]. destruct fuel; cbn [rc_loop]; [reflexivity|]. rewrite E. reflexivity.
  - exists (S k). split; [lia|]. rewrite E, map_map. reflexivity.
Qed.
Lemma rj_loop_iter {N : Num} (tol : N) itmax fuel : forall n res st r1 o,
  exists k, (k <= fuel)%nat /\ (k = 0%nat -> fuel = 0%nat \/ nlt N tol res = false) /\ rj_loop tol itmax fuel n res st r1 o = rj_run tol itmax k n st r1 o.
Proof.
  induction fuel as [|fuel IH]; intros n res st r1 o; cbn [rj_loop]; [exists 0%nat; auto|]. destruct (nlt N tol res) eqn:E.
  - destruct (IH (S n) (resid (map2 (fun a b => nadd N a b) (rj_rhs1 tol itmax n st r1) (map (rj_rhs2 n) st)) o) (map rj_next st) (rj_rhs1 tol itmax n st r1)
        (map2 (fun a b => nadd N a b) (rj_rhs1 tol itmax n st r1) (map (rj_rhs2 n) st))) as (k & hk & _ & Ek).
    exists (S k). split; [lia|]. split; [lia|]. rewrite Ek. reflexivity.
  - exists 0%nat. split; [lia|]. split; auto.
Qed.
(** C41: one value per input, whatever the arithmetic (floats included); [] for [] *)
Theorem C41_shape {N : Num} (nm : list (N * N)) :
  len (ellipticPiCarlson nm) = len nm /\ ellipticPiCarlson (@nil (N * N)) = [].
Proof. split; [apply ellipticPiCarlson_length|reflexivity]. Qed.
(** C41: each loop makes at least 1 and at most 20 iterations, on any input (including inf and nan) *)
Theorem C41_iterations :
  (forall y : list X, y <> [] -> exists k, (1 <= k <= 20)%nat /\
     ellipticRF (N := XN) y = map (fun y => rf_val (N := XN) (itn (k - 1) (rf_next (N := XN)) (Fin 0, y, Fin 1))) y) /\
  (forall xy : list (X * X), xy <> [] -> exists k, (1 <= k <= 20)%nat /\
     ellipticRC (N := XN) xy = map (fun p => rc_val (N := XN) (itn (k - 1) (rc_next (N := XN)) p)) xy) /\
  (forall yr : list (X * X), exists k, (1 <= k <= 20)%nat /\
     ellipticRJ (N := XN) yr =
       let b := map (fun p => nlt XN (Fin 0) (snd p)) yr in
       let sel := gather b (map (fun p => ((Fin 0, fst p, Fin 1), snd p)) yr) in
       let z0 := map (fun _ => Fin 0) sel in
       scatter b (rj_run (N := XN) (RES (N := XN)) ITMAX k 0 sel z0 z0) (map (fun _ => PInf) yr)).
Proof.
  assert (R1 : nlt XN (RES (N := XN)) (Fin 1) = true). { rewrite RES_fin. apply Rltb_true. unfold RESr. lra. }
  split; [|split].
  - intros y NE. unfold ellipticRF, RF_tol. change (nZ XN 1) with (Fin 1).
    match goal with |- context [rf_loop ?t ?f ?r ?s ?o] => destruct (rf_loop_iter t f r s o) as [E|[E|(k & hk & E)]] end; [discriminate|congruence|].
    exists (S k). unfold ITMAX in hk. split; [lia|]. rewrite E, map_map. replace (S k - 1)%nat with k by lia. reflexivity.
  - intros xy NE. unfold ellipticRC, RC_tol. change (nZ XN 1) with (Fin 1).
    match goal with |- context [rc_loop ?t ?f ?r ?s ?o] => destruct (rc_loop_iter t f r s o) as [E|[E|(k & hk & E)]] end; [discriminate|congruence|].
    exists (S k). unfold ITMAX in hk. split; [lia|]. rewrite E. replace (S k - 1)%nat with k by lia. reflexivity.
  - intros yr. unfold ellipticRJ, RJ_tol. change (nZ XN 1) with (Fin 1).
    match goal with |- context [rj_loop ?t ?i ?f ?n ?r ?s ?a ?b] => destruct (rj_loop_iter t i f n r s a b) as (k & hk & hk0 & E) end.
    exists k. unfold ITMAX in hk. split.
    + destruct k; [|lia]. destruct (hk0 eq_refl) as [H|H]; [discriminate|rewrite R1 in H; discriminate].
    + rewrite E. reflexivity.
Qed.
(** ** C42: each iteration preserves the integral *)
(** RF: Carlson's RF of the next triple is that of the current one *)
Theorem C42_RF_duplication (x y z l : R) : 0 <= x -> 0 < y -> 0 < z ->
  let '(x', y', z') := rf_next (N := RN) (x, y, z) in is_RF x y z l <-> is_RF x' y' z' l.
Proof. intros hx hy hz. exact (rf_next_RF (x, y, z) l (conj hx (conj hy hz))). Qed.
Theorem C42_RC_duplication (x y l : R) : 0 <= x -> 0 < y ->
  let '(x', y') := rc_next (N := RN) (x, y) in is_RC x y l <-> is_RC x' y' l.
Proof.
  intros hx hy. pose proof (rc_next_up3 (x, y) hx ltac:(cbn; lra)) as E. pose proof (rf_next_RF (x, y, y) l (conj hx (conj hy hy))) as H.
  change (up3 (x, y)) with (x, y, y) in E. rewrite <- E in H. pose proof (rc_next_ok (x, y) (conj hx hy)) as OK.
  destruct (rc_next (N := RN) (x, y)) as [x' y']. cbn [up3 fst snd RF_of] in H. destruct OK as [_ hy']. cbn in hy'. tt.
  rewrite <- (RC_RF x y l hy), <- (RC_RF x' y' l hy'). exact H.
Qed.
(** RJ: the integral of the current quadruple is a quarter of that of the next plus three times RC(alfa, bet) *)
Theorem C42_RJ_duplication (x y z r : R) : 0 <= x -> 0 < y -> 0 < z -> 0 < r ->
  let '(x', y', z', r') := rj_next (N := RN) (x, y, z, r) in let '(alfa, bet) := rj_alfa_bet (N := RN) (x, y, z, r) in
  exists l' c, is_RJ x' y' z' r' l' /\ is_RC alfa bet c /\ forall l, is_RJ x y z r l <-> l = l' / 4 + 3 * c.
Proof.
  intros hx hy hz hr. assert (OK : ok4' (x, y, z, r)) by (repeat split; auto). destruct (rj_ab_pos _ OK) as [P1 P2].
  destruct (RC_exists _ _ ltac:(apply Rlt_le, P1) P2) as [c HC]. assert (K := rj_next_RJ (x, y, z, r)). specialize (fun l => K l c OK HC).
  assert (L0 : 0 < lamR x y z).
  { unfold lamR. pose proof (sqrt_pos x). pose proof (sqrt_lt_R0 y hy). pose proof (sqrt_lt_R0 z hz).
    assert (0 < sqrt y * sqrt z) by (apply Rmult_lt_0_compat; lra); assert (0 <= sqrt x * sqrt y) by (apply Rmult_le_pos; lra); assert (0 <= sqrt x * sqrt z) by (apply Rmult_le_pos; lra); lra. }
  rewrite rj_next_R in * by lra.
  destruct (RJ_exists ((x + lamR x y z) / 4) ((y + lamR x y z) / 4) ((z + lamR x y z) / 4) ((r + lamR x y z) / 4)) as [l' HL']; try lra.
  specialize (K l' HL'). destruct (rj_alfa_bet (N := RN) (x, y, z, r)) as [al be]. cbn [fst snd RJ_of] in *. exists l', c. split; auto. split; auto.
  intros l. split; [|intros ->; auto]. intros H. exact (is_RJ_unique _ _ _ _ _ _ H K).
Qed.
(** the RF and RC iterates converge to the integral *)
Lemma cv_of_err (u : nat -> R) (l B : R) : (forall k, Rabs (u (S k) - l) <= B / 4 ^ k) -> is_lim_seq u l.
Proof.
  intros H. apply is_lim_seq_incr_1. apply is_lim_seq_spec. intros eps. pose proof (cond_pos eps) as he.
  assert (L : is_lim_seq (fun k => B * (/ 4) ^ k) 0).
  { replace (Finite 0) with (Rbar_mult B 0) by (cbn; f_equal; ring). apply is_lim_seq_scal_l. apply is_lim_seq_geom. rewrite Rabs_pos_eq; lra. }
  apply is_lim_seq_spec in L. destruct (L eps) as [k0 Hk]. exists k0. intros k hk. specialize (Hk k hk). eapply Rle_lt_trans; [apply H|].
  replace (B / 4 ^ k) with (B * (/ 4) ^ k - 0) by (rewrite pow_inv; field; apply pow_nonzero; lra).
  eapply Rle_lt_trans; [apply Rle_abs|exact Hk].
Qed.
Lemma first_box x y z : 0 <= x -> 0 < y -> 0 < z -> exists a b, 0 < a /\ box3 a b (rf_next (N := RN) (x, y, z)).
Proof.
  intros hx hy hz. rewrite rf_next_R by lra. assert (L0 : 0 < lamR x y z).
  { unfold lamR. pose proof (sqrt_pos x). pose proof (sqrt_lt_R0 y hy). pose proof (sqrt_lt_R0 z hz).
    assert (0 < sqrt y * sqrt z) by (apply Rmult_lt_0_compat; lra); assert (0 <= sqrt x * sqrt y) by (apply Rmult_le_pos; lra); assert (0 <= sqrt x * sqrt z) by (apply Rmult_le_pos; lra); lra. }
  exists (lamR x y z / 4), ((x + y + z + lamR x y z) / 4). split; [lra|]. unfold box3. lra.
Qed.
Theorem C42_RF_limit (x y z l : R) : 0 <= x -> 0 < y -> 0 < z -> is_RF x y z l ->
  is_lim_seq (fun k => rf_val (N := RN) (itn k (rf_next (N := RN)) (x, y, z))) l.
Proof.
  intros hx hy hz H. destruct (first_box x y z hx hy hz) as (a & b & ha & HB).
  apply (cv_of_err _ l (8 * (b - a) / (a * sqrt a))). intros k. cbn [itn]. apply rf_it_err; auto.
  apply (rf_next_RF (x, y, z)); auto.
Qed.
Theorem C42_RC_limit (x y l : R) : 0 < x -> 0 < y -> is_RC x y l ->
  is_lim_seq (fun k => rc_val (N := RN) (itn k (rc_next (N := RN)) (x, y))) l.
Proof.
  intros hx hy H. apply (cv_of_err _ l (3 * (Rmax x y - Rmin x y) / (Rmin x y * sqrt (Rmin x y)) / 4)). intros k.
  pose proof (Rmin_l x y). pose proof (Rmin_r x y). pose proof (Rmax_l x y). pose proof (Rmax_r x y). pose proof (Rmin_pos x y hx hy).
  pose proof (rc_it_err (S k) (Rmin x y) (Rmax x y) (x, y) l ltac:(lra) ltac:(unfold box2; cbn; lra) H) as E. eapply Rle_trans; [exact E|].
  apply Req_le. cbn [pow]. assert (0 < sqrt (Rmin x y)) by (apply sqrt_lt_R0; lra). pose proof (pow4_pos k). field. repeat split; lra.
Qed.
(** ** C43: convergence of ellipticPiCarlson *)
Lemma amax_ge0 (l : list R) : l <> [] -> Forall (fun x => 0 <= x) l -> 0 <= amax (N := RN) l.
Proof.
  destruct l as [|a l]; [congruence|]. intros _ H. cbn [amax]. inversion H as [|? ? ha hl]; subst. clear H. revert a ha. induction hl as [|b l hb hl IH]; intros a ha; cbn [fold_left]; auto.
  apply IH. change (0 <= Rmax a b). pose proof (Rmax_l a b). lra.
Qed.
Lemma resid_ge0 (a b : list R) : a <> [] -> len a = len b -> 0 <= resid (N := RN) a b.
Proof.
  intros NE L. unfold resid. apply amax_ge0.
  - destruct a, b; cbn in *; congruence.
  - revert b L. clear NE. induction a as [|x a IH]; intros [|y b] L; try discriminate; cbn [map2]; constructor; [apply Rabs_pos|apply IH; auto].
Qed.
Lemma rf_full (tol : R) fuel : tol < 0 -> forall res (st : list (R * R * R)) o, tol < res -> st <> [] -> len o = len st ->
  rf_loop (N := RN) tol (S fuel) res st o = map (fun p => rf_val (N := RN) (itn fuel (rf_next (N := RN)) p)) st.
Proof.
  intros ht. induction fuel as [|fuel IH]; intros res st o hr NE L.
  - cbn [rf_loop]. change (nlt RN tol res) with (Rltb tol res). rewrite (proj2 (Rltb_true tol res) hr). reflexivity.
  - remember (S fuel) as f. cbn [rf_loop]. subst f. change (nlt RN tol res) with (Rltb tol res). rewrite (proj2 (Rltb_true tol res) hr). rewrite IH.
    + rewrite map_map. reflexivity.
    + eapply Rlt_le_trans; [exact ht|]. apply resid_ge0; [destruct st; cbn; congruence|rewrite map_length; tt; congruence].
    + destruct st; cbn; congruence.
    + rewrite !map_length. reflexivity.
Qed.
Lemma rc_full (tol : R) fuel : tol < 0 -> forall res (st : list (R * R)) o, tol < res -> st <> [] -> len o = len st ->
  rc_loop (N := RN) tol (S fuel) res st o = map (fun p => rc_val (N := RN) (itn fuel (rc_next (N := RN)) p)) st.
Proof.
  intros ht. induction fuel as [|fuel IH]; intros res st o hr NE L.
  - cbn [rc_loop]. change (nlt RN tol res) with (Rltb tol res). rewrite (proj2 (Rltb_true tol res) hr). reflexivity.
  - remember (S fuel) as f. cbn [rc_loop]. subst f. change (nlt RN tol res) with (Rltb tol res). rewrite (proj2 (Rltb_true tol res) hr). rewrite IH.
    + rewrite map_map. reflexivity.
    + eapply Rlt_le_trans; [exact ht|]. apply resid_ge0; [destruct st; cbn; congruence|rewrite map_length; tt; congruence].
    + destruct st; cbn; congruence.
    + rewrite !map_length. reflexivity.
Qed.
Lemma rj_rhs1_full (tol : R) K n (st : list R4t) (r1 : list R) : tol < 0 -> st <> [] ->
  rj_rhs1 (N := RN) tol (S K) n st r1 = map2 (fun p r => r + 3 * / 4 ^ n * rcK K p) st r1.
Proof.
  intros ht NE. unfold rj_rhs1, RC_tol. rewrite rc_full; auto.
  - rewrite map_map. rewrite map2_map_r. rewrite inv4_R. fold rcK. clear NE. revert r1. induction st as [|p st IH]; intros [|r r1]; cbn [map2]; auto. f_equal. apply IH.
  - change (tol < 1). lra.
  - destruct st; cbn; congruence.
  - rewrite map_length. reflexivity.
Qed.
Lemma rj_full (tol : R) K fuel : tol < 0 -> forall n res (st : list R4t) r1 o, tol < res -> st <> [] -> len r1 = len st -> len o = len st ->
  rj_loop (N := RN) tol (S K) (S fuel) n res st r1 o = map2 (fun p r => rjv K fuel n p r) st r1.
Proof.
  intros ht. induction fuel as [|fuel IH]; intros n res st r1 o hr NE L1 L.
  - cbn [rj_loop rjv]. change (nlt RN tol res) with (Rltb tol res). rewrite (proj2 (Rltb_true tol res) hr). rewrite rj_rhs1_full by auto. rewrite map2_map_r.
    clear -L1. revert r1 L1. induction st as [|p st IH]; intros [|r r1] L1; try discriminate; cbn [map2]; auto. f_equal. apply IH. injection L1; auto.
  - remember (S fuel) as f. cbn [rj_loop]. subst f. change (nlt RN tol res) with (Rltb tol res). rewrite (proj2 (Rltb_true tol res) hr). rewrite rj_rhs1_full by auto.
    assert (L2 : len (map2 (fun p r => r + 3 * / 4 ^ n * rcK K p) st r1) = len st) by (rewrite map2_length; change (T RN) with R in *; lia).
    rewrite IH.
    + clear -L1. revert r1 L1. induction st as [|p st IH]; intros [|r r1] L1; try discriminate; cbn [map map2]; auto. f_equal. apply IH. injection L1; auto.
    + eapply Rlt_le_trans; [exact ht|]. apply resid_ge0.
      * destruct st as [|p st], r1 as [|r r1]; try discriminate; cbn; congruence.
      * rewrite map2_length, map_length. tt. rewrite L2, L. lia.
    + destruct st; cbn; congruence.
    + rewrite map_length. exact L2.
    + rewrite map2_length, !map_length. tt. rewrite L2. lia.
Qed.
Lemma Forall2_filter_map {A B} (t : A -> bool) (f : A -> B) (l : list A) : Forall2 (fun a v => v = f a) (filter t l) (map f (filter t l)).
Proof. induction (filter t l); cbn [map]; constructor; auto. Qed.
Lemma filter_map {A B} (t : B -> bool) (f : A -> B) (l : list A) : filter t (map f l) = map f (filter (fun a => t (f a)) l).
Proof. induction l as [|a l IH]; [reflexivity|]. cbn [map filter]. destruct (t (f a)); cbn [map]; rewrite IH; reflexivity. Qed.
Lemma RJsel_full (tol : R) K (yr : list (R * R)) : tol < 0 -> filter (fun p => Rltb 0 (snd p)) yr <> [] ->
  RJsel tol (S K) yr = map (fun p => rjv K K 0 (0, fst p, 1, snd p) 0) (filter (fun p => Rltb 0 (snd p)) yr).
Proof.
  intros ht NE. unfold RJsel. set (fl := filter _ yr) in *.
  rewrite rj_full; [|auto|lra|destruct fl; cbn; congruence|rewrite map_length; reflexivity|rewrite map_length; reflexivity].
  rewrite map2_map_r. clear. induction fl as [|p fl IH]; cbn [map map2]; [reflexivity|]. f_equal. exact IH.
Qed.
(** without early stopping every entry is the [K+1]-th iterate of that entry alone *)
Lemma Pi_full (tol : R) K (l : list (R * R)) : tol < 0 -> Forall (fun p => snd p <= 1) l ->
  Forall2 (fun p v => fst p < 1 -> v = Fin (rf_val (N := RN) (itn K (rf_next (N := RN)) (0, 1 - snd p, 1)) + 1 / 3 * fst p * rjv K K 0 (0, 1 - snd p, 1, 1 - fst p) 0))
    l (Pi_tol (N := XN) (Fin tol) (S K) (map F2 l)).
Proof.
  intros ht H. destruct l as [|p0 l0] eqn:EL; [constructor|]. rewrite <- EL in *.
  assert (NE : l <> []) by (rewrite EL; congruence).
  assert (EC : Pi_tol (N := XN) (Fin tol) (S K) (map F2 l) =
    map2 (fun rf q => nadd XN rf q) (RF_tol (N := XN) (Fin tol) (S K) (map (fun p => nsub XN (nZ XN 1) (snd p)) (map F2 l)))
       (map2 (fun p rj => nmul XN (nmul XN (nQ XN 1 3) (fst p)) rj) (map F2 l) (RJ_tol (N := XN) (Fin tol) (S K) (map (fun p => (nsub XN (nZ XN 1) (snd p), nsub XN (nZ XN 1) (fst p))) (map F2 l))))).
  { rewrite EL. reflexivity. }
  rewrite EC. clear EC. rewrite !map_map. tt. cbn [fst snd F2].
  change (map (fun x : R * R => nsub XN (nZ XN 1) (Fin (snd x))) l) with (map (fun x : R * R => Fin (1 - snd x)) l). rewrite <- (map_map (fun x : R * R => 1 - snd x) Fin).
  change (map (fun x : R * R => (nsub XN (nZ XN 1) (Fin (snd x)), nsub XN (nZ XN 1) (Fin (fst x)))) l) with (map (fun x : R * R => F2 (1 - snd x, 1 - fst x)) l).
  rewrite <- (map_map (fun x : R * R => (1 - snd x, 1 - fst x)) F2).
  rewrite RF_lift; [|rewrite EL; cbn; congruence|rewrite Forall_map; eapply Forall_impl; [|exact H]; cbn; intros; lra].
  assert (J : Forall2 (fun (p : R * R) v => fst p < 1 -> v = Fin (rjv K K 0 (0, 1 - snd p, 1, 1 - fst p) 0)) l (RJ_tol (N := XN) (Fin tol) (S K) (map F2 (map (fun x : R * R => (1 - snd x, 1 - fst x)) l)))).
  { rewrite RJ_lift by (rewrite Forall_map; eapply Forall_impl; [|exact H]; cbn; intros; lra).
    rewrite !map_map. cbn [snd]. apply (scatter_Forall2 (fun x : R * R => Rltb 0 (1 - fst x)) _ (fun p v => v = Fin (rjv K K 0 (0, 1 - snd p, 1, 1 - fst p) 0))).
    - destruct (filter (fun x : R * R => Rltb 0 (1 - fst x)) l) as [|q ql] eqn:EF.
      + pose proof (RJsel_len tol (S K) (map (fun x : R * R => (1 - snd x, 1 - fst x)) l)) as LL. rewrite filter_map in LL. cbn [snd] in LL. rewrite EF in LL. cbn [map List.length] in LL.
        destruct (RJsel tol (S K) (map (fun x : R * R => (1 - snd x, 1 - fst x)) l)); [constructor|discriminate].
      + rewrite RJsel_full; auto; rewrite filter_map; cbn [snd]; rewrite EF; [|cbn; congruence]. rewrite !map_map. cbn [fst snd].
        generalize (q :: ql). intros ql'. induction ql' as [|a ql' IH]; cbn [map]; constructor; auto.
    - intros a v E Hv _. exact Hv.
    - intros a E. apply Rltb_false in E. lra. }
  assert (RFE : RF_tol (N := RN) tol (S K) (map (fun x : R * R => 1 - snd x) l) = map (fun x : R * R => rf_val (N := RN) (itn K (rf_next (N := RN)) (0, 1 - snd x, 1))) l).
  { unfold RF_tol. rewrite rf_full; auto.
    - rewrite !map_map. reflexivity.
    - change (tol < 1). lra.
    - rewrite EL. cbn. congruence.
    - rewrite !map_length. reflexivity. }
  rewrite RFE, map_map. clear RFE. revert J. generalize (RJ_tol (N := XN) (Fin tol) (S K) (map F2 (map (fun x : R * R => (1 - snd x, 1 - fst x)) l))). clear. tt.
  induction l as [|[n m] l IH]; intros vs J; inversion J as [|x y l1 l2 P1 P2]; subst; cbn [map map2]; [constructor|].
  constructor; [|apply IH; auto]. intros Hn. rewrite (P1 Hn). reflexivity.
Qed.
Lemma RF_run_err m : m < 1 -> exists F B, is_RF 0 (1 - m) 1 F /\ forall k, Rabs (rf_val (N := RN) (itn (S k) (rf_next (N := RN)) (0, 1 - m, 1)) - F) <= B / 4 ^ k.
Proof.
  intros hm. destruct (RF_exists 0 (1 - m) 1 ltac:(lra) ltac:(lra) ltac:(lra)) as [F HF]. destruct (first_box 0 (1 - m) 1 ltac:(lra) ltac:(lra) ltac:(lra)) as (a & b & ha & HB).
  exists F, (8 * (b - a) / (a * sqrt a)). split; auto. intros k. cbn [itn]. apply rf_it_err; auto. apply (rf_next_RF (0, 1 - m, 1)); [lra|exact HF].
Qed.
Lemma RJ_run_err n m : n < 1 -> m < 1 -> exists J B, is_RJ 0 (1 - m) 1 (1 - n) J /\ 0 <= B /\ forall k, Rabs (rjv (S k) (S k) 0 (0, 1 - m, 1, 1 - n) 0 - J) <= B / 4 ^ k.
Proof.
  intros hn hm. set (p0 := ((0, 1 - m, 1, 1 - n) : R4t)). assert (OK : ok4' p0) by (unfold p0, ok4'; lra).
  destruct (rj_ab_pos p0 OK) as [P1 P2]. destruct (RC_exists _ _ ltac:(apply Rlt_le, P1) P2) as [c HC].
  assert (BX : exists a b, 0 < a /\ box4 a b (rj_next (N := RN) p0)).
  { unfold p0. rewrite rj_next_R by lra. assert (L0 : 0 < lamR 0 (1 - m) 1).
    { unfold lamR. pose proof (sqrt_pos 0). pose proof (sqrt_lt_R0 (1 - m) ltac:(lra)). rewrite sqrt_1. assert (0 <= sqrt 0 * sqrt (1 - m)) by (apply Rmult_le_pos; lra). lra. }
    exists (lamR 0 (1 - m) 1 / 4), ((0 + (1 - m) + 1 + (1 - n) + lamR 0 (1 - m) 1) / 4). split; [lra|]. unfold box4, box3. cbn [fst snd]. lra. }
  destruct BX as (a & b & ha & HB). pose proof (box4_ok a _ _ ha HB) as OK'.
  assert (EX : exists l', RJ_of (rj_next (N := RN) p0) l').
  { destruct (rj_next (N := RN) p0) as [[[x y] z] r0]. change (T RN) with R in *. destruct OK' as (k1 & k2 & k3 & k4). apply (RJ_exists x y z r0); lra. }
  destruct EX as [l' HL']. pose proof (rj_next_RJ p0 l' c OK HC HL') as E.
  set (al := fst (rj_alfa_bet (N := RN) p0)) in *. set (be := snd (rj_alfa_bet (N := RN) p0)) in *.
  set (B1 := 3 * (Rmax al be - Rmin al be) / (Rmin al be * sqrt (Rmin al be))). change (T RN) with R in *.
  pose proof (Rmin_l al be). pose proof (Rmin_r al be). pose proof (Rmax_l al be). pose proof (Rmax_r al be). pose proof (Rmin_pos al be P1 P2).
  assert (B10 : 0 <= B1). { unfold B1. apply Rdiv_le_0_compat; [lra|]. apply Rmult_lt_0_compat; auto. apply sqrt_lt_R0; auto. }
  assert (hab : a <= b) by (destruct HB as [HB' _]; exact (box3_le _ _ _ HB')).
  set (B2 := 4 * MC a b). set (B3 := 1104 * (b - a) / (a * a * sqrt a)).
  assert (B20 : 0 <= B2) by (unfold B2; pose proof (MC_mono a b a b ha ltac:(lra) hab ltac:(lra)); lra).
  assert (sa : 0 < sqrt a) by (apply sqrt_lt_R0; lra).
  assert (B30 : 0 <= B3) by (unfold B3; apply Rdiv_le_0_compat; [lra|repeat apply Rmult_lt_0_compat; lra]).
  exists (l' / 4 + 3 * c), (B1 + B2 + B3). split; [exact E|]. split; [lra|]. intros k. cbn [rjv]. fold p0.
  replace (0 + 3 * / 4 ^ 0 * rcK (S k) p0) with (3 * rcK (S k) p0) by (cbn [pow]; field).
  pose proof (rc_it_err (S k) (Rmin al be) (Rmax al be) (rj_alfa_bet (N := RN) p0) c ltac:(lra) ltac:(split; fold al be; lra) HC) as E1. fold (rcK (S k) p0) B1 in E1.
  pose proof (rjv_err (S k) k 1 a b _ (3 * rcK (S k) p0) l' ha HB HL') as E2. pose proof (pow4_pos k) as pk.
  replace (rjv (S k) k 1 (rj_next (N := RN) p0) (3 * rcK (S k) p0) - (l' / 4 + 3 * c)) with
    (3 * (rcK (S k) p0 - c) + (rjv (S k) k 1 (rj_next (N := RN) p0) (3 * rcK (S k) p0) - (3 * rcK (S k) p0 + / 4 ^ 1 * l'))) by (cbn [pow]; field).
  eapply Rle_trans; [apply Rabs_triang|]. rewrite Rabs_mult, (Rabs_pos_eq 3) by lra.
  assert (I1 : 3 * Rabs (rcK (S k) p0 - c) <= B1 / 4 ^ k).
  { replace (B1 / 4 ^ S k) with (/ 4 * (B1 / 4 ^ k)) in E1 by (cbn [pow]; field; lra). assert (0 <= B1 / 4 ^ k) by (apply Rdiv_le_0_compat; lra). lra. }
  assert (I2 : / 4 ^ 1 * (4 * (MC a b / 4 ^ S k) + 1104 * (b - a) / (a * a * sqrt a) / 4 ^ S k / 4 ^ k) <= (B2 + B3) / 4 ^ k).
  { fold B3. replace (/ 4 ^ 1 * (4 * (MC a b / 4 ^ S k) + B3 / 4 ^ S k / 4 ^ k)) with (/ 16 * (B2 / 4 ^ k + B3 / 4 ^ k / 4 ^ k)) by (unfold B2; cbn [pow]; field; lra).
    assert (0 <= B2 / 4 ^ k) by (apply Rdiv_le_0_compat; lra). assert (0 <= B3 / 4 ^ k) by (apply Rdiv_le_0_compat; lra).
    assert (B3 / 4 ^ k / 4 ^ k <= B3 / 4 ^ k).
    { unfold Rdiv at 1. rewrite <- (Rmult_1_r (B3 / 4 ^ k)) at 2. apply Rmult_le_compat_l; auto. rewrite <- Rinv_1. apply Rinv_le_contravar; [lra|]. apply pow_R1_Rle; lra. }
    unfold Rdiv in *. rewrite Rmult_plus_distr_r. lra. }
  unfold Rdiv in I1, I2 |- *. rewrite !Rmult_plus_distr_r in *. unfold Rdiv in E2. lra.
Qed.
(** C43: the exact integral is the limit: with the stopping test switched off ([tol < 0]) and [N] iterations in every loop, the returned
    value is within [B / 4^N] of PI(n, m), [B] depending on (n, m) only -- not on the other points of the array *)
Theorem C43_converges (n m : R) : n < 1 -> m < 1 -> exists B, forall (tol : R) (N : nat) (l : list (R * R)) (i : nat),
  tol < 0 -> (2 <= N)%nat -> Forall (fun p => snd p <= 1) l -> nth_error l i = Some (n, m) ->
  exists v, nth_error (Pi_tol (N := XN) (Fin tol) N (map F2 l)) i = Some (Fin v) /\ Rabs (v - Piell n m) <= B / 4 ^ N.
Proof.
  intros hn hm. destruct (RF_run_err m hm) as (F & B1 & HF & E1). destruct (RJ_run_err n m hn hm) as (J & B2 & HJ & B20 & E2).
  exists (16 * (B1 + Rabs (n / 3) * B2)). intros tol N l i ht hN HL Hi. destruct N as [|[|k]]; try lia.
  pose proof (Pi_full tol (S k) l ht HL) as HP.
  assert (HLn : len (Pi_tol (N := XN) (Fin tol) (S (S k)) (map F2 l)) = len l) by (revert HP; generalize (Pi_tol (N := XN) (Fin tol) (S (S k)) (map F2 l)); clear; intros vs HP; induction HP; cbn [List.length]; congruence).
  destruct (nth_error (Pi_tol (N := XN) (Fin tol) (S (S k)) (map F2 l)) i) as [v|] eqn:EV.
  2:{ apply nth_error_None in EV. assert (nth_error l i <> None) by congruence. apply nth_error_Some in H. tt. lia. }
  pose proof (Forall2_nth _ _ _ _ _ _ HP Hi EV) as Hv. cbn [fst snd] in Hv. specialize (Hv hn). rewrite Hv. eexists. split; [reflexivity|].
  rewrite (Piell_RFRJ n m F J hn hm HF HJ). specialize (E1 k). specialize (E2 k). pose proof (pow4_pos k).
  match goal with |- Rabs (?a + 1 / 3 * n * ?b - (F + n / 3 * J)) <= _ => replace (a + 1 / 3 * n * b - (F + n / 3 * J)) with ((a - F) + n / 3 * (b - J)) by (field) end.
  eapply Rle_trans; [apply Rabs_triang|]. rewrite Rabs_mult.
  replace (16 * (B1 + Rabs (n / 3) * B2) / 4 ^ S (S k)) with (B1 / 4 ^ k + Rabs (n / 3) * (B2 / 4 ^ k)) by (cbn [pow]; field; lra).
  apply Rplus_le_compat; [exact E1|]. apply Rmult_le_compat_l; [apply Rabs_pos|exact E2].
Qed.
