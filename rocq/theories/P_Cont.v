(** * C116: the continuous solver with swirl, and its Cq option *)
From Coquelicot Require Import Coquelicot.
From Coq Require Import ZArith List Bool Arith Lia String Reals Lra Psatz.
From Verif Require Import Num NumR NumX M_Cylinder M_Solver L_List L_X L_Solver P_Solver P_Solver2.
Import ListNotations.
Local Open Scope R_scope.
Local Notation len := List.length.

(** ** Specification *)
(** trapezoidal rule for [f] between the nodes [i] and [n-1] of the grid [x] *)
Definition trap_from (x : nat -> R) (f : nat -> R) (i n : nat) : R := sum_over (fun j => (x (S j) - x j) * ((f j + f (S j)) / 2)) i (n - 1 - i).

Lemma cumtrapz_X acc y x : cumtrapz_from (N := XN) (Fin acc) (map Fin y) (map Fin x) = map Fin (cumtrapz_from (N := RN) acc y x).
Proof.
  revert acc x. induction y as [|y0 y IH]; intros acc x; [reflexivity|]. destruct y as [|y1 y]; [destruct x; reflexivity|].
  destruct x as [|x0 [|x1 x]]; try reflexivity.
  change (cumtrapz_from (N := XN) (Fin acc) (map Fin (y0 :: y1 :: y)) (map Fin (x0 :: x1 :: x))) with
    (let acc' := xadd (Fin acc) (xdiv (Fin ((x1 - x0) * (y1 + y0))) (Fin 2)) in acc' :: cumtrapz_from (N := XN) acc' (map Fin (y1 :: y)) (map Fin (x1 :: x))).
  rewrite xdiv_fin by lra. cbv zeta. change (xadd (Fin acc) (Fin ((x1 - x0) * (y1 + y0) / 2))) with (Fin (acc + (x1 - x0) * (y1 + y0) / 2)). rewrite IH. reflexivity.
Qed.
(** the suffix sums *)
Fixpoint suf (y x : list R) : list R :=
  match y, x with
  | y0 :: ((y1 :: _) as y'), x0 :: ((x1 :: _) as x') => (hd 0 (suf y' x') + (x0 - x1) * (y0 + y1) / 2) :: suf y' x'
  | _, _ => [0]
  end.
Lemma cumtrapz_snoc y x acc a b : len y = len x -> y <> [] ->
  cumtrapz_from (N := RN) acc (y ++ [a]) (x ++ [b]) =
  cumtrapz_from (N := RN) acc y x ++ [last (acc :: cumtrapz_from (N := RN) acc y x) 0 + (b - last x 0) * (a + last y 0) / 2].
Proof.
  revert x acc. induction y as [|y0 y IH]; intros x acc HL HN; [congruence|]. destruct x as [|x0 x]; [discriminate|].
  destruct y as [|y1 y].
  - destruct x; [|discriminate]. cbn. reflexivity.
  - destruct x as [|x1 x]; [discriminate|]. 
    change (cumtrapz_from (N := RN) acc ((y0 :: y1 :: y) ++ [a]) ((x0 :: x1 :: x) ++ [b])) with
      (let acc' := acc + (x1 - x0) * (y1 + y0) / 2 in acc' :: cumtrapz_from (N := RN) acc' ((y1 :: y) ++ [a]) ((x1 :: x) ++ [b])).
    cbv zeta. rewrite IH by (cbn in *; lia || discriminate). reflexivity.
Qed.
Lemma suf_spec y x : len y = len x -> rev (0 :: cumtrapz_from (N := RN) 0 (rev y) (rev x)) = suf y x.
Proof.
  revert x. induction y as [|y0 y IH]; intros x HL; [destruct x; [reflexivity|discriminate]|]. destruct x as [|x0 x]; [discriminate|].
  destruct y as [|y1 y]; [destruct x; [reflexivity|discriminate]|]. destruct x as [|x1 x]; [discriminate|].
  change (suf (y0 :: y1 :: y) (x0 :: x1 :: x)) with ((hd 0 (suf (y1 :: y) (x1 :: x)) + (x0 - x1) * (y0 + y1) / 2) :: suf (y1 :: y) (x1 :: x)).
  specialize (IH (x1 :: x) ltac:(cbn in *; lia)). set (Y := y1 :: y) in *. set (X := x1 :: x) in *.
  change (rev (y0 :: Y)) with (rev Y ++ [y0]). change (rev (x0 :: X)) with (rev X ++ [x0]).
  rewrite cumtrapz_snoc.
  2: { rewrite !rev_length. unfold Y, X. cbn in *. lia. }
  2: { unfold Y. cbn. intros E. apply app_eq_nil in E. destruct E; discriminate. }
  set (C := cumtrapz_from (N := RN) 0 (rev Y) (rev X)) in *. rewrite app_comm_cons, rev_app_distr. cbn [rev app]. change (rev C ++ [0]) with (rev (0 :: C)). rewrite IH. f_equal.
  assert (LR : forall (l : list R) d, last (rev l) d = hd d l). { intros [|c l] d; [reflexivity|]. cbn. apply last_last. }
  rewrite !LR. rewrite <- IH. unfold Y, X. cbn [hd]. f_equal.
  rewrite <- LR, rev_involutive. reflexivity.
Qed.
Lemma suf_nth y x i : len y = len x -> y <> [] -> (i < len y)%nat ->
  nth_error (suf y x) i = Some (- trap_from (fun j => nth j x 0) (fun j => nth j y 0) i (len y)).
Proof.
  revert x i. induction y as [|y0 y IH]; intros x i HL HN Hi; [congruence|]. destruct x as [|x0 x]; [discriminate|].
  destruct y as [|y1 y].
  - destruct x; [|discriminate]. destruct i; [|cbn in Hi; lia]. cbn. f_equal. unfold trap_from, sum_over. cbn. ring.
  - destruct x as [|x1 x]; [discriminate|].
    change (suf (y0 :: y1 :: y) (x0 :: x1 :: x)) with ((hd 0 (suf (y1 :: y) (x1 :: x)) + (x0 - x1) * (y0 + y1) / 2) :: suf (y1 :: y) (x1 :: x)).
    assert (HL' : len (y1 :: y) = len (x1 :: x)) by (cbn in *; lia). set (Y := y1 :: y) in *. set (X := x1 :: x) in *.
    assert (SH : forall i, (i < len Y)%nat -> trap_from (fun j => nth j (x0 :: X) 0) (fun j => nth j (y0 :: Y) 0) (S i) (len (y0 :: Y)) = trap_from (fun j => nth j X 0) (fun j => nth j Y 0) i (len Y)).
    { intros k Hk. unfold trap_from, sum_over. cbn [len]. replace (S (len Y) - 1 - S k)%nat with (len Y - 1 - k)%nat by lia. rewrite <- seq_shift, map_map. reflexivity. }
    destruct i as [|i].
    + cbn [nth_error]. f_equal. pose proof (IH X 0%nat HL' ltac:(discriminate) ltac:(unfold Y; cbn; lia)) as E0.
      destruct (suf Y X) as [|s0 S0]; [discriminate|]. cbn [nth_error] in E0. injection E0 as ->. cbn [hd].
      rewrite <- SH by (unfold Y; cbn; lia). unfold trap_from, sum_over. cbn [len].
      replace (S (len Y) - 1 - 0)%nat with (S (S (len Y) - 1 - 1)) by (unfold Y; cbn; lia). change (seq 0 (S (S (len Y) - 1 - 1))) with (0%nat :: seq 1 (S (len Y) - 1 - 1)).
      set (fr := fun j : nat => (nth (S j) (x0 :: X) 0 - nth j (x0 :: X) 0) * ((nth j (y0 :: Y) 0 + nth (S j) (y0 :: Y) 0) / 2)). rewrite map_cons. cbn [fold_right].
      assert (F0 : fr 0%nat = (x1 - x0) * ((y0 + y1) / 2)) by reflexivity. rewrite F0. field.
    + cbn [nth_error]. rewrite IH; [|auto|discriminate|cbn in *; lia]. rewrite SH by (cbn in *; lia). reflexivity.
Qed.

(** the quantities of the continuous formulation, at the stations of a grid (all arrays of the same length) *)
Section Paper.
  Variables (rb lam k : list R).
  Definition a_prime_ (i : nat) : R := nth i k 0 / (4 * nth i lam 0 ^ 2).
  (** rotation term: 8 times the integral from r_i to the last station of lambda^2 a'^2 / r *)
  Definition Ct_rot_ (i : nat) : R := 8 * trap_from (fun j => nth j rb 0) (fun j => nth j lam 0 ^ 2 * a_prime_ j ^ 2 / nth j rb 0) i (len k).
  Definition Ct_KJ_ (i : nat) : R := nth i k 0 * (1 + a_prime_ i).
End Paper.
Record grid (rb lam k : list R) : Prop := { gr_ne : k <> []; gr_r : len rb = len k; gr_l : len lam = len k;
  gr_rnz : forall r, In r rb -> r <> 0; gr_lnz : forall l, In l lam -> l <> 0 }.

Lemma nth_map2 {A B C} (f : A -> B -> C) l m i d e g : (i < len l)%nat -> len l = len m -> nth i (map2 f l m) g = f (nth i l d) (nth i m e).
Proof.
  revert m i. induction l as [|a l IH]; intros [|b m] [|i] H E; cbn in *; try lia; auto. apply IH; lia.
Qed.
Lemma nthm (f : R -> R) l i : (i < len l)%nat -> nth i (map f l) 0 = f (nth i l 0).
Proof. intros H. rewrite (nth_indep _ 0 (f 0)) by (rewrite map_length; auto). apply map_nth. Qed.
Lemma nth_error_ext {A} (l m : list A) : (forall i, nth_error l i = nth_error m i) -> l = m.
Proof.
  revert m. induction l as [|a l IH]; intros [|b m] H; auto; try (specialize (H 0%nat); discriminate).
  pose proof (H 0%nat) as E. cbn in E. injection E as ->. f_equal. apply IH. intros i. apply (H (S i)).
Qed.
Lemma list_of {A} (l : list A) (f : nat -> A) n : len l = n -> (forall i, (i < n)%nat -> nth_error l i = Some (f i)) -> l = map f (seq 0 n).
Proof.
  intros HL H. apply nth_error_ext. intros i. destruct (Nat.lt_ge_cases i n) as [Hi|Hi].
  - rewrite (H i Hi), nth_error_map. rewrite (nth_error_nth' _ 0%nat) by (rewrite seq_length; auto). rewrite seq_nth by auto. reflexivity.
  - rewrite (proj2 (nth_error_None _ _)) by lia. symmetry. apply nth_error_None. rewrite map_length, seq_length. auto.
Qed.
Lemma safety_nz f l : (forall r, In r l -> r <> 0) -> l <> [] -> safety (N := XN) f (map Fin l) = Ok (map Fin l).
Proof.
  intros H H'. destruct l as [|a l]; [congruence|]. cbn [map safety]. change (neqb XN (Fin a) (nZ XN 0)) with (Reqb a 0).
  rewrite (proj2 (Reqb_false a 0)); auto. apply H. now left.
Qed.
Lemma suf_len y x : len y = len x -> y <> [] -> len (suf y x) = len y.
Proof.
  revert x. induction y as [|y0 y IH]; intros x HL HN; [congruence|]. destruct x as [|x0 x]; [discriminate|].
  destruct y as [|y1 y]; [destruct x; [reflexivity|discriminate]|]. destruct x as [|x1 x]; [discriminate|].
  change (suf (y0 :: y1 :: y) (x0 :: x1 :: x)) with ((hd 0 (suf (y1 :: y) (x1 :: x)) + (x0 - x1) * (y0 + y1) / 2) :: suf (y1 :: y) (x1 :: x)).
  cbn [len]. f_equal. apply IH; [cbn in *; lia|discriminate].
Qed.

(** ** C116 *)
(** The balance of the continuous formulation, for every grid and circulation *)
Theorem C116_continuous_momentum : forall rb lam k, grid rb lam k ->
  exists o, InductionsFromCirculation_VC_Cont (N := XN) (map Fin rb) (map Fin lam) (map Fin k) true true true = Ok o /\
    let n := len k in
    co_ap o = map (fun i => Fin (a_prime_ lam k i)) (seq 0 n) /\
    co_CtKJ o = map (fun i => Fin (Ct_KJ_ lam k i)) (seq 0 n) /\
    co_Ctrot o = map (fun i => Fin (Ct_rot_ rb lam k i)) (seq 0 n) /\
    co_Cteff o = map (fun i => Fin (Ct_KJ_ lam k i - Ct_rot_ rb lam k i)) (seq 0 n) /\
    co_a o = map (fun i => Fin (momentum_induction (Ct_KJ_ lam k i - Ct_rot_ rb lam k i))) (seq 0 n) /\
    co_lambda_after o = map Fin lam.
Proof.
  intros rb lam k [Hne Hr Hl Hrz Hlz].
  assert (Lne : lam <> []) by (destruct lam; [destruct k; [congruence|discriminate]|discriminate]).
  unfold InductionsFromCirculation_VC_Cont. nT. rewrite safety_nz by auto. cbn [bind negb].
  set (ap := map2 (fun k l => k / (4 * (l * l))) k lam).
  assert (EA : map2 (fun k l : X => ndiv XN k (nmul XN (nZ XN 4) (sq (l : XN)))) (map Fin k) (map Fin lam) = map Fin ap).
  { unfold ap. clear -Hlz. revert lam Hlz. induction k as [|a k IH]; intros [|l lam] H; try reflexivity. cbn [map map2]. f_equal.
    - xn. rewrite xdiv_fin; [reflexivity|]. pose proof (Rsqr_pos_lt l (H l (or_introl eq_refl))) as Q. unfold Rsqr in Q. lra.
    - apply IH. intros; apply H; now right. }
  nT. rewrite EA.
  set (y := map2 (fun la r => fst la * fst la * (snd la * snd la) / r) (map2 pair lam ap) rb).
  assert (EY : map2 (fun (l_ap : X * X) (r : X) => ndiv XN (nmul XN (sq (fst l_ap : XN)) (sq (snd l_ap : XN))) r) (map2 pair (map Fin lam) (map Fin ap)) (map Fin rb) = map Fin y).
  { unfold y. clear -Hrz. clearbody ap. revert ap rb Hrz. induction lam as [|l lam IH]; intros [|a ap] [|r rb] H; try reflexivity. cbn [map map2]. f_equal.
    - cbn [fst snd]. xn. rewrite xdiv_fin; [reflexivity|]. apply H. now left.
    - apply IH. intros; apply H; now right. }
  nT. rewrite EY. rewrite <- !map_rev. unfold cumtrapz. change (nZ XN 0) with (Fin 0). nT. rewrite cumtrapz_X.
  assert (LA : len ap = len k) by (unfold ap; rewrite map2_length_eq; congruence).
  assert (LY : len y = len k) by (unfold y; rewrite !map2_length_eq; rewrite ?map2_length_eq; congruence).
  assert (ER : rev (Fin 0 :: map (fun v : X => nmul XN (nopp XN (nZ XN 8)) v) (map Fin (cumtrapz_from (N := RN) 0 (rev y) (rev rb)))) = map Fin (map (fun v => - 8 * v) (suf y rb))).
  { rewrite <- (suf_spec y rb (eq_trans LY (eq_sym Hr))). rewrite !map_rev. f_equal. cbn [map]. rewrite !map_map. apply f_equal2; [f_equal; ring|reflexivity]. }
  nT. rewrite ER.
  rewrite (map2_fin _ (fun k a => k * (1 + a))) by (intros; reflexivity).
  rewrite (map2_fin _ (fun a b => a - b)) by (intros; reflexivity).
  rewrite (map_fin _ momentum_induction).
  2: { intros c _. rewrite Ct_c_X. change (nlt XN (Fin CtC) (Fin c)) with (Rltb CtC c). change (nle XN (Fin c) (Fin CtC)) with (Rleb c CtC).
    rewrite momentum_indR. unfold indR. destruct (Rlt_dec CtC c) as [H|H].
    - rewrite (proj2 (Rltb_true _ _)) by auto. apply spera_X.
    - rewrite (proj2 (Rltb_false _ _)), (proj2 (Rleb_true _ _)) by lra. apply mom_X. unfold CtC in H. lra. }
  eexists. split; [reflexivity|]. cbn [co_ap co_CtKJ co_Ctrot co_Cteff co_a co_lambda_after].
  assert (NA : forall i, (i < len k)%nat -> nth i ap 0 = a_prime_ lam k i).
  { intros i Hi. unfold ap. rewrite (nth_map2 _ _ _ _ 0 0) by congruence. unfold a_prime_. f_equal. ring. }
  assert (A : ap = map (a_prime_ lam k) (seq 0 (len k))).
  { apply list_of; auto. intros i Hi. rewrite (nth_error_nth' _ 0) by congruence. f_equal. auto. }
  assert (K : map2 (fun k a => k * (1 + a)) k ap = map (Ct_KJ_ lam k) (seq 0 (len k))).
  { apply list_of; [rewrite map2_length_eq; congruence|]. intros i Hi. rewrite (nth_error_nth' _ 0) by (rewrite map2_length_eq; congruence). f_equal.
    rewrite (nth_map2 _ _ _ _ 0 0) by congruence. rewrite NA by auto. reflexivity. }
  assert (Yne : y <> []) by (destruct y; [destruct k; [congruence|discriminate]|discriminate]).
  assert (NY : forall j, (j < len k)%nat -> nth j y 0 = nth j lam 0 ^ 2 * a_prime_ lam k j ^ 2 / nth j rb 0).
  { intros j Hj. unfold y. rewrite (nth_map2 _ _ _ _ (0,0) 0) by (rewrite map2_length_eq; congruence). rewrite (nth_map2 _ _ _ _ 0 0) by congruence. cbn [fst snd]. rewrite NA by auto. f_equal. ring. }
  assert (R : map (fun v => - 8 * v) (suf y rb) = map (Ct_rot_ rb lam k) (seq 0 (len k))).
  { apply list_of; [rewrite map_length, suf_len; congruence|]. intros i Hi. rewrite nth_error_map, (suf_nth y rb i (eq_trans LY (eq_sym Hr)) Yne (eq_ind_r (fun n => (i < n)%nat) Hi LY)). cbn [option_map]. f_equal. unfold Ct_rot_.
    rewrite LY. match goal with |- - 8 * - ?a = 8 * ?b => replace b with a; [ring|] end.
    unfold trap_from, sum_over. f_equal. apply map_ext_in. intros j Hj. apply in_seq in Hj. rewrite !NY by lia. reflexivity. }
  assert (E : map2 (fun a b => a - b) (map2 (fun k a => k * (1 + a)) k ap) (map (fun v => - 8 * v) (suf y rb)) = map (fun i => Ct_KJ_ lam k i - Ct_rot_ rb lam k i) (seq 0 (len k))).
  { rewrite K, R. clear. generalize (seq 0 (len k)). induction l as [|i l IH]; [reflexivity|]. cbn [map map2]. f_equal. exact IH. }
  rewrite E, K, R, A. rewrite !map_map. repeat split.
Qed.

Example C116_case : grid [1/2; 1] [3; 6] [8/10; 7/10].
Proof.
  split; try discriminate; try reflexivity; cbn [In].
  - intros r [<-|[<-|[]]]; lra.
  - intros r [<-|[<-|[]]]; lra.
Qed.

(** The tangential induction is the same in the continuous and the discrete formulation: Gamma/(4 pi Omega r^2) *)
Theorem C116_tangential_induction : forall r_cp G Rt U0 Omega bTan r_cyl rc, good r_cp G Rt U0 Omega r_cyl rc ->
  Rt <> 0 -> (forall r, In r r_cp -> r <> 0) ->
  exists w w', WakeVorticityFromCirculation_Cont (N := XN) (map Fin r_cp) (map Fin G) (Fin Rt) (Fin U0) (Fin Omega) true true true = Ok w /\
    discr r_cp G Rt U0 Omega 1 true bTan true r_cyl = Ok w' /\
    w_ap w = w_ap w' /\ w_ap w = map (fun i => Fin (nth i G 0 / (4 * PI * Omega * nth i r_cp 0 ^ 2))) (seq 0 (len r_cp)).
Proof.
  intros r_cp G Rt U0 Omega bTan r_cyl rc HG HR Hpos. pose proof (good_cyl _ _ _ _ _ _ _ HG) as ER. subst rc. pose proof PI_RGT_0 as HP.
  destruct HG as [_ H1 H2 H3 H4 H5 H6 H7].
  assert (D : PI * (U0 * U0) <> 0). { apply Rmult_integral_contrapositive_currified; [lra|]. pose proof (Rsqr_pos_lt U0 H4) as Q. unfold Rsqr in Q. lra. }
  set (kk := map (fun g => Omega * g / (PI * (U0 * U0))) G). set (lam := map (fun r => Omega * r / U0) r_cp). set (rb := map (fun r => r / Rt) r_cp).
  assert (GR : grid rb lam kk).
  { unfold rb, lam, kk. split; rewrite ?map_length; auto.
    - destruct G; [destruct r_cp; [congruence|discriminate]|discriminate].
    - intros r Hr. apply in_map_iff in Hr. destruct Hr as (x & <- & Hx). unfold Rdiv. apply Rmult_integral_contrapositive_currified; [auto|]. now apply Rinv_neq_0_compat.
    - intros r Hr. apply in_map_iff in Hr. destruct Hr as (x & <- & Hx). unfold Rdiv. repeat apply Rmult_integral_contrapositive_currified; auto. now apply Rinv_neq_0_compat. }
  destruct (C116_continuous_momentum rb lam kk GR) as (o & Eo & Eap & _). cbv zeta in Eap.
  do 2 eexists. split; [|split].
  - unfold WakeVorticityFromCirculation_Cont. nT. rewrite safety_nz by auto. cbn [bind].
    rewrite (map_fin (fun g : X => ndiv XN (nmul XN (Fin Omega) g) (nmul XN (npi XN) (sq (Fin U0 : XN)))) (fun g => Omega * g / (PI * (U0 * U0)))).
    2: { intros a _. xn. rewrite xdiv_fin; auto. }
    rewrite (map_fin (fun r : X => ndiv XN (nmul XN (Fin Omega) r) (Fin U0)) (fun r => Omega * r / U0)).
    2: { intros a _. xn. rewrite xdiv_fin; auto. }
    rewrite (map_fin (fun r : X => ndiv XN r (Fin Rt)) (fun r => r / Rt)).
    2: { intros a _. xn. rewrite xdiv_fin; auto. }
    fold kk lam rb. nT. rewrite Eo. cbn [bind]. reflexivity.
  - apply (discr_ok r_cp G Rt U0 Omega 1 r_cyl) with (bS := true) (bT := bTan) (bH := true); assumption.
  - cbn [w_ap]. nT. rewrite Eap.
    assert (V : forall i, (i < len r_cp)%nat -> a_prime_ lam kk i = nth i G 0 / (4 * PI * Omega * nth i r_cp 0 ^ 2)).
    { intros i Hi. unfold a_prime_, lam, kk. rewrite !nthm by congruence.
      assert (nth i r_cp 0 <> 0) by (apply Hpos, nth_In; auto). field. repeat split; auto; lra. }
    assert (LK : len kk = len r_cp) by (unfold kk; rewrite map_length; auto). rewrite LK.
    assert (EV : map (fun i => Fin (a_prime_ lam kk i)) (seq 0 (len r_cp)) = map (fun i => Fin (nth i G 0 / (4 * PI * Omega * nth i r_cp 0 ^ 2))) (seq 0 (len r_cp))).
    { apply map_ext_in. intros i Hi. apply in_seq in Hi. rewrite V by lia. reflexivity. }
    rewrite EV. split; [|reflexivity]. symmetry. apply list_of.
    + unfold GX. rewrite map2_length_eq; rewrite ?map_length; auto.
    + intros i Hi. unfold GX.
      assert (M : forall (F : X -> X -> X) (a b : list X) n x y, nth_error a n = Some x -> nth_error b n = Some y -> nth_error (map2 F a b) n = Some (F x y)).
      { clear. intros F a. induction a as [|c a IH]; intros [|d b] [|n] x y Ha Hb; cbn in *; try discriminate; [congruence|eauto]. }
      assert (nth i r_cp 0 <> 0) by (apply Hpos, nth_In; auto).
      etransitivity; [eapply M|].
      * rewrite !nth_error_map. rewrite (nth_error_nth' _ 0) by congruence. reflexivity.
      * rewrite nth_error_map. rewrite (nth_error_nth' _ 0) by auto. reflexivity.
      * f_equal. xn. rewrite xdiv_fin; [f_equal; field; repeat split; auto; lra|].
        assert (4 * PI <> 0) by lra. apply Rmult_integral_contrapositive_currified; [apply Rmult_integral_contrapositive_currified; auto|apply Rmult_integral_contrapositive_currified; auto].
Qed.
Example C116_case_wake : good [20; 40] [3; 2] 50 10 1 None [30; 50] /\ 50 <> 0 /\ (forall r, In r [20; 40] -> r <> 0).
Proof. split; [apply C31_nonvacuous|]. split; [lra|]. cbn. intros r [<-|[<-|[]]]; lra. Qed.

(** With Cq: axial induction, thrust coefficients and errors are those of the call without it; the tangential induction and the
    returned circulation satisfy the torque balance  Cq = 4 a' (1-a) lambda = k_Cq (1-a) / lambda *)
Theorem C116_torque_option : forall rb lam k Cq bS an bH,
  let plain := InductionsFromCirculation_VC_Cont (N := XN) (map Fin rb) (map Fin lam) (map Fin k) bS an bH in
  let withq := InductionsFromCirculation_VC_Cont_Cq (N := XN) (map Fin rb) (map Fin lam) (map Fin k) (map Fin Cq) bS an bH in
  (forall e, withq = Err e <-> plain = Err e) /\
  (forall o k2, withq = Ok (o, k2) -> exists o', plain = Ok o' /\ co_a o = co_a o' /\ co_CtKJ o = co_CtKJ o' /\ co_Cteff o = co_Cteff o' /\ co_Ctrot o = co_Ctrot o') /\
  (forall i a l c o k2, withq = Ok (o, k2) -> nth_error (co_a o) i = Some (Fin a) -> nth_error (co_lambda_after o) i = Some (Fin l) -> nth_error Cq i = Some c ->
     a <> 1 -> l <> 0 -> exists ap kq, nth_error (co_ap o) i = Some (Fin ap) /\ nth_error k2 i = Some (Fin kq) /\ c = 4 * ap * (1 - a) * l /\ c = kq * (1 - a) / l).
Proof.
  intros rb lam k Cq bS an bH plain withq.
  assert (W : withq = bind plain (fun o => _)) by reflexivity. 
  split; [|split].
  - intros e. rewrite W. destruct plain; cbn [bind]; split; intros E; congruence.
  - intros o k2 E. rewrite W in E. destruct plain as [o'|]; [|discriminate]. cbn [bind] in E. apply Ok_inj in E. injection E as <- <-. exists o'. repeat split.
  - intros i a l c o k2 E Ha Hl Hc Na Nl. rewrite W in E. destruct plain as [o'|]; [|discriminate]. cbn [bind] in E. apply Ok_inj in E. injection E as <- <-. cbn [co_a co_ap co_lambda_after] in *.
    assert (M : forall {A B C} (F : A -> B -> C) (a : list A) (b : list B) n x y, nth_error a n = Some x -> nth_error b n = Some y -> nth_error (map2 F a b) n = Some (F x y)).
    { clear. intros A B C F a. induction a as [|c a IH]; intros [|d b] [|n] x y Ha Hb; cbn in *; try discriminate; [congruence|eauto]. }
    assert (K2 : nth_error (map2 (fun (cl : X * X) (a : X) => ndiv XN (nmul XN (fst cl) (snd cl)) (nsub XN (nZ XN 1) a)) (map2 pair (map Fin Cq) (co_lambda_after o')) (co_a o')) i = Some (Fin (c * l / (1 - a)))).
    { erewrite M; [| |exact Ha]. 2: { erewrite M; [reflexivity| |exact Hl]. rewrite nth_error_map, Hc. reflexivity. }
      f_equal. cbn [fst snd]. xn. rewrite xdiv_fin by lra. reflexivity. }
    exists (c * l / (1 - a) / (4 * (l * l))), (c * l / (1 - a)). split; [|split; [exact K2|]].
    + erewrite M; [|exact K2|exact Hl]. f_equal. xn. pose proof (Rsqr_pos_lt l Nl) as Q. unfold Rsqr in Q. rewrite xdiv_fin by lra. reflexivity.
    + split; field; split; auto; lra.
Qed.

(** Uniform circulation on an increasing grid with lambda proportional to the radius: the rotation term exceeds the exact
    integral  8 int_{r_i}^{r_n} lambda^2 a'^2/r dr = (k^2/4)(1/lambda_i^2 - 1/lambda_n^2), by at most a term of the second
    order in the largest step; so the axial induction is underestimated *)
Theorem C116_rotation_error : forall rb Lam k i h, 0 < Lam -> (i < len rb)%nat ->
  (forall j, (S j < len rb)%nat -> 0 < nth j rb 0 /\ 0 < nth (S j) rb 0 - nth j rb 0 <= h) -> 0 < nth i rb 0 ->
  let lam := map (fun r => Lam * r) rb in let kk := map (fun _ => k) rb in
  let exact_rot := k ^ 2 / 4 * (1 / nth i lam 0 ^ 2 - 1 / nth (len rb - 1) lam 0 ^ 2) in
  0 <= Ct_rot_ rb lam kk i - exact_rot <= k ^ 2 / (2 * Lam ^ 2) * (h ^ 2 * (nth (len rb - 1) rb 0 - nth i rb 0) / nth i rb 0 ^ 5).
Proof.
  intros rb Lam k i h HL Hi Hg Hri lam kk exact_rot.
  assert (NL : forall j, (j < len rb)%nat -> nth j lam 0 = Lam * nth j rb 0).
  { intros j Hj. unfold lam. apply nthm. auto. }
  assert (NK : forall j, (j < len rb)%nat -> nth j kk 0 = k).
  { intros j Hj. unfold kk. rewrite nthm by auto. reflexivity. }
  assert (LK : len kk = len rb) by (unfold kk; apply map_length).
  set (r := fun j => nth j rb 0) in *. change (0 < r i) in Hri.
  assert (Hg2 : forall j, (S j < len rb)%nat -> 0 < r j /\ 0 < r (S j) - r j <= h) by exact Hg. clear Hg. rename Hg2 into Hg.
  assert (POS : forall d, (i + d < len rb)%nat -> r i <= r (i + d)%nat).
  { induction d as [|d IH]; intros Hd; [rewrite Nat.add_0_r; lra|]. specialize (IH ltac:(lia)). destruct (Hg (i + d)%nat ltac:(lia)) as [_ Q]. replace (i + S d)%nat with (S (i + d)) by lia. lra. }
  assert (CELL : forall a b, 0 < a -> a < b -> (b - a) * ((1 / a ^ 3 + 1 / b ^ 3) / 2) - (1 / a ^ 2 - 1 / b ^ 2) / 2 = (b - a) ^ 3 * (a + b) / (2 * a ^ 3 * b ^ 3)).
  { intros a b Ha Hb. field. split; lra. }
  assert (BND : forall a b, r i <= a -> a < b -> b - a <= h -> 0 <= (b - a) ^ 3 * (a + b) / (2 * a ^ 3 * b ^ 3) <= (b - a) * (h ^ 2 / r i ^ 5)).
  { intros a b Ha Hb Hh. assert (0 < a) by lra. assert (0 < b) by lra. assert (A3 : 0 < a ^ 3) by (apply pow_lt; lra). assert (B3 : 0 < b ^ 3) by (apply pow_lt; lra). assert (B2 : 0 < b ^ 2) by (apply pow_lt; lra).
    split.
    - apply Rdiv_le_0_compat; [|apply Rmult_lt_0_compat; lra]. apply Rmult_le_pos; [apply pow_le; lra|lra].
    - assert (S1 : (b - a) ^ 3 * (a + b) / (2 * a ^ 3 * b ^ 3) <= (b - a) ^ 3 * (1 / (a ^ 3 * b ^ 2))).
      { unfold Rdiv. rewrite Rmult_assoc. apply Rmult_le_compat_l; [apply pow_le; lra|]. rewrite Rmult_1_l.
        replace (/ (a ^ 3 * b ^ 2)) with ((2 * b) * / (2 * a ^ 3 * b ^ 3)) by (field; split; lra). apply Rmult_le_compat_r; [|lra].
        left. apply Rinv_0_lt_compat. apply Rmult_lt_0_compat; lra. }
      assert (S2 : (b - a) ^ 3 * (1 / (a ^ 3 * b ^ 2)) <= (b - a) ^ 3 * (1 / r i ^ 5)).
      { apply Rmult_le_compat_l; [apply pow_le; lra|]. unfold Rdiv. rewrite !Rmult_1_l. apply Rinv_le_contravar; [apply pow_lt; exact Hri|].
        replace (r i ^ 5) with (r i ^ 3 * r i ^ 2) by ring. apply Rmult_le_compat; try (apply pow_le; unfold r in *; lra); apply pow_incr; unfold r in *; lra. }
      assert (S3 : (b - a) ^ 3 * (1 / r i ^ 5) <= (b - a) * (h ^ 2 / r i ^ 5)).
      { assert (0 < r i ^ 5) by (apply pow_lt; exact Hri). replace ((b - a) ^ 3 * (1 / r i ^ 5)) with ((b - a) * ((b - a) ^ 2 / r i ^ 5)) by (field; lra).
        apply Rmult_le_compat_l; [lra|]. unfold Rdiv. apply Rmult_le_compat_r; [left; apply Rinv_0_lt_compat; auto|]. apply pow_incr. lra. }
      lra. }
  assert (MAIN : forall d, (i + d < len rb)%nat ->
     0 <= sum_over (fun j => (r (S j) - r j) * ((1 / r j ^ 3 + 1 / r (S j) ^ 3) / 2)) i d - (1 / r i ^ 2 - 1 / r (i + d)%nat ^ 2) / 2 <= h ^ 2 * (r (i + d)%nat - r i) / r i ^ 5).
  { induction d as [|d IH]; intros Hd.
    - unfold sum_over. cbn [seq map fold_right]. rewrite Nat.add_0_r. replace (h ^ 2 * (r i - r i) / r i ^ 5) with 0 by (field; lra). lra.
    - specialize (IH ltac:(lia)). assert (SS : forall f, sum_over f i (S d) = sum_over f i d + f (i + d)%nat).
      { intros f. unfold sum_over. rewrite seq_S, map_app, fold_right_app. cbn [map fold_right]. generalize (map f (seq i d)). intros l. rewrite Rplus_0_r. induction l as [|x l IHl]; cbn; [ring|rewrite IHl; ring]. }
      rewrite SS. clear SS. destruct (Hg (i + d)%nat ltac:(lia)) as [P Q].  pose proof (POS d ltac:(lia)).
      replace (i + S d)%nat with (S (i + d)) by lia. pose proof (CELL (r (i + d)%nat) (r (S (i + d))) ltac:(lra) ltac:(lra)) as C1.
      pose proof (BND (r (i + d)%nat) (r (S (i + d))) ltac:(lra) ltac:(lra) ltac:(lra)) as B1.
      assert (EH : h ^ 2 * (r (S (i + d)) - r i) / r i ^ 5 = h ^ 2 * (r (i + d)%nat - r i) / r i ^ 5 + (r (S (i + d)) - r (i + d)%nat) * (h ^ 2 / r i ^ 5)).
      { field. unfold r in *. lra. }
      rewrite EH. lra. }
  specialize (MAIN (len rb - 1 - i)%nat ltac:(lia)). replace (i + (len rb - 1 - i))%nat with (len rb - 1)%nat in MAIN by lia.
  assert (RI : forall j, (i <= j)%nat -> (j < len rb)%nat -> 0 < r j).
  { intros j H1 H2. pose proof (POS (j - i)%nat ltac:(lia)) as Q. replace (i + (j - i))%nat with j in Q by lia. unfold r in *. lra. }
  assert (EC : Ct_rot_ rb lam kk i = k ^ 2 / (2 * Lam ^ 2) * sum_over (fun j => (r (S j) - r j) * ((1 / r j ^ 3 + 1 / r (S j) ^ 3) / 2)) i (len rb - 1 - i)).
  { unfold Ct_rot_, trap_from. rewrite LK. unfold sum_over.
    assert (Q : forall l, (forall j, In j l -> (i <= j)%nat /\ (S j < len rb)%nat) ->
       8 * fold_right Rplus 0 (map (fun j => (nth (S j) rb 0 - nth j rb 0) * ((nth j lam 0 ^ 2 * a_prime_ lam kk j ^ 2 / nth j rb 0 + nth (S j) lam 0 ^ 2 * a_prime_ lam kk (S j) ^ 2 / nth (S j) rb 0) / 2)) l) =
       k ^ 2 / (2 * Lam ^ 2) * fold_right Rplus 0 (map (fun j => (r (S j) - r j) * ((1 / r j ^ 3 + 1 / r (S j) ^ 3) / 2)) l)).
    { induction l as [|j l IH]; intros Hl; [cbn; ring|]. cbn [map fold_right]. destruct (Hl j (or_introl eq_refl)) as [J1 J2].
      rewrite Rmult_plus_distr_l, IH by (intros; apply Hl; now right). rewrite Rmult_plus_distr_l. f_equal. unfold a_prime_. rewrite !NL, !NK by lia.
      fold (r j). change (nth (S j) rb 0) with (r (S j)). pose proof (RI j J1 ltac:(lia)). pose proof (RI (S j) ltac:(lia) J2). field. repeat split; lra. }
    apply Q. intros j Hj. apply in_seq in Hj. lia. }
  assert (EE : exact_rot = k ^ 2 / (2 * Lam ^ 2) * ((1 / r i ^ 2 - 1 / r (len rb - 1)%nat ^ 2) / 2)).
  { unfold exact_rot. rewrite !NL by lia. fold (r i). change (nth (len rb - 1) rb 0) with (r (len rb - 1)%nat). pose proof (RI (len rb - 1)%nat ltac:(lia) ltac:(lia)). pose proof (RI i ltac:(lia) Hi). field. repeat split; lra. }
  rewrite EC, EE, <- Rmult_minus_distr_l.
  assert (K0 : 0 <= k ^ 2 / (2 * Lam ^ 2)). { apply Rdiv_le_0_compat; [apply pow2_ge_0|]. assert (0 < Lam ^ 2) by (apply pow_lt; auto). lra. }
  split; [apply Rmult_le_pos; lra|]. apply Rmult_le_compat_l; auto. apply MAIN.
Qed.
Example C116_case_grid : 0 < 7 /\ (0 < len [1/4; 1/2; 1])%nat /\ (forall j, (S j < len [1/4; 1/2; 1])%nat -> 0 < nth j [1/4; 1/2; 1] 0 /\ 0 < nth (S j) [1/4; 1/2; 1] 0 - nth j [1/4; 1/2; 1] 0 <= 1/2).
Proof.
  split; [lra|]. split; [cbn; lia|]. intros [|[|[|j]]] H; cbn in *; try lia; lra.
Qed.
