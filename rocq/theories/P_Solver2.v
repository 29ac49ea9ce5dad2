(** * Properties of Solver.py: C38-C40 *)
From Coquelicot Require Import Coquelicot.
From Coq Require Import ZArith List Bool Arith Lia String Reals Lra Psatz ClassicalDescription IndefiniteDescription.
From Verif Require Import Num NumR NumX M_Cylinder M_Solver L_List L_X L_Solver P_Solver.
Import ListNotations.
Local Open Scope R_scope.
Local Notation len := List.length.

(** ** C38 *)
(** [f] decreases strictly down to [m] and increases strictly from there *)
Definition unimodal (f : R -> R) (lo hi m : R) : Prop :=
  lo <= m <= hi /\ (forall x y, lo <= x -> x < y -> y <= m -> f y < f x) /\
  (forall x y, m <= x -> x < y -> y <= hi -> f x < f y).
(** what scipy's bounded scalar minimisation guarantees: on a unimodal function it
    returns a point of the interval within its tolerance of the minimum *)
Definition bounded_minimiser (minim : (XN -> XN) -> XN -> XN -> XN) (tol : R) : Prop :=
  forall (F : XN -> XN) (f : R -> R) lo hi m,
  (forall x, lo <= x <= hi -> F (Fin x) = Fin (f x)) -> unimodal f lo hi m ->
  exists x, minim F (Fin lo) (Fin hi) = Fin x /\ lo <= x <= hi /\ Rabs (x - m) <= tol.

Definition Ct_of_k (lam k : R) : R := k * (1 + k / (4 * lam ^ 2)).
Lemma Ct_of_k_incr lam x y : lam <> 0 -> 0 <= x -> x < y -> Ct_of_k lam x < Ct_of_k lam y.
Proof.
  intros Hl Hx Hy. unfold Ct_of_k. unfold Rdiv.
  assert (0 < / (4 * lam ^ 2)). { apply Rinv_0_lt_compat. pose proof (Rsqr_pos_lt lam Hl) as Q. unfold Rsqr in Q. nra. }
  set (c := / (4 * lam ^ 2)) in *. assert (0 < c * ((y - x) * (y + x))) by (apply Rmult_lt_0_compat; nra). nra.
Qed.
Lemma obj_unimodal lam ct m : lam <> 0 -> 0 <= m <= 18/10 ->
  (Ct_of_k lam m = ct \/ (m = 18/10 /\ Ct_of_k lam m <= ct)) ->
  unimodal (fun k => Rabs (Ct_of_k lam k - ct)) 0 (18/10) m.
Proof.
  intros Hl Hm Hc. split; auto. split; intros x y Hx Hxy Hy.
  - pose proof (Ct_of_k_incr lam x y Hl Hx Hxy).
    assert (Ct_of_k lam y <= Ct_of_k lam m).
    { destruct Hy as [Hy| ->]; [left; apply Ct_of_k_incr; lra|lra]. }
    rewrite !Rabs_left1 by lra. lra.
  - destruct Hc as [Hc|[-> Hc]]; [|lra].
    pose proof (Ct_of_k_incr lam x y Hl ltac:(lra) Hxy).
    assert (Ct_of_k lam m <= Ct_of_k lam x).
    { destruct Hx as [Hx| ->]; [left; apply Ct_of_k_incr; lra|lra]. }
    rewrite !Rabs_right by lra. lra.
Qed.
Lemma k_obj_X lam ct k : lam <> 0 -> k_obj (N := XN) (Fin lam) (Fin ct) (Fin k) = Fin (Rabs (Ct_of_k lam k - ct)).
Proof.
  intros Hl. unfold k_obj. assert (4 * (lam * lam) <> 0) by (pose proof (Rsqr_pos_lt lam Hl) as Q; unfold Rsqr in Q; nra). xn. rewrite xdiv_fin by auto. xn.
  unfold Ct_of_k. do 4 f_equal. field. auto.
Qed.
(** the equation has a solution in the search interval exactly when Ct is not too large,
    and then only one *)
Lemma Ct_of_k_ivt lam ct : lam <> 0 -> 0 <= ct -> ct <= Ct_of_k lam (18/10) ->
  exists k, 0 <= k <= 18/10 /\ Ct_of_k lam k = ct.
Proof.
  intros Hl H0 H1.
  destruct (IVT_gen (Ct_of_k lam) 0 (18/10) ct) as (k & Hk & E).
  - intros x. unfold Ct_of_k. apply derivable_continuous_pt. auto_derive_fun (fun k => k * (1 + k / (4 * lam ^ 2))).
    intros HD. exists (1 + x / (4 * lam ^ 2) + x * (1 / (4 * lam ^ 2))).
    apply is_derive_Reals. auto_derive; [auto|]. cbn. field. auto.
  - replace (Ct_of_k lam 0) with 0 by (unfold Ct_of_k; ring). unfold Rmin, Rmax. repeat destruct Rle_dec; lra.
  - exists k. split; auto. unfold Rmin, Rmax in Hk. repeat destruct Rle_dec; lra.
Qed.

Theorem C38_prescribed_Ct :
  forall minim tol, 0 <= tol -> bounded_minimiser minim tol ->
  forall (rbar Ct : list R) (Lambda : R), Lambda <> 0 -> len Ct = len rbar ->
  exists ks, CirculationFromPrescribedCt (N := XN) minim (map Fin rbar) (map Fin Ct) (Fin Lambda) true = map Fin ks /\
    len ks = len rbar /\
    forall i r c k, nth_error rbar i = Some r -> nth_error Ct i = Some c -> nth_error ks i = Some k ->
      0 <= k <= 18/10 /\
      (c <= 0 \/ r <= 0 -> k = 0) /\
      (0 < c -> 0 < r -> c <= Ct_of_k (Lambda * r) (18/10) ->
         exists k0, 0 <= k0 <= 18/10 /\ Ct_of_k (Lambda * r) k0 = c /\ Rabs (k - k0) <= tol) /\
      (0 < c -> 0 < r -> Ct_of_k (Lambda * r) (18/10) <= c -> Rabs (k - 18/10) <= tol).
Proof.
  intros minim tol Ht HM rbar Ct Lambda HL. revert Ct. induction rbar as [|r rbar IH]; intros Ct HC.
  - exists []. destruct Ct; [|discriminate]. repeat split; auto; destruct i; discriminate.
  - destruct Ct as [|c Ct]; [discriminate|]. destruct (IH Ct ltac:(cbn in HC; lia)) as (ks & E & L & P).
    unfold CirculationFromPrescribedCt in *. cbn [map map2].
    set (K := fun k => 0 <= k <= 18/10 /\
      (c <= 0 \/ r <= 0 -> k = 0) /\
      (0 < c -> 0 < r -> c <= Ct_of_k (Lambda * r) (18/10) ->
         exists k0, 0 <= k0 <= 18/10 /\ Ct_of_k (Lambda * r) k0 = c /\ Rabs (k - k0) <= tol) /\
      (0 < c -> 0 < r -> Ct_of_k (Lambda * r) (18/10) <= c -> Rabs (k - 18/10) <= tol)).
    assert (X1 : exists k, (if (nlt XN (nZ XN 0) (Fin c) && nlt XN (nZ XN 0) (Fin r))%bool
        then minim (k_obj (nmul XN (Fin Lambda) (Fin r)) (Fin c : XN)) (nZ XN 0) (nQ XN 18 10) else nZ XN 0) = Fin k /\ K k).
    { change (nlt XN (nZ XN 0) (Fin c)) with (Rltb 0 c). change (nlt XN (nZ XN 0) (Fin r)) with (Rltb 0 r).
      change (nZ XN 0) with (Fin 0). change (nQ XN 18 10) with (Fin (18/10)).
      change (nmul XN (Fin Lambda) (Fin r)) with (Fin (Lambda * r)).
      destruct (Rltb_spec 0 c) as [Hc|Hc]; [destruct (Rltb_spec 0 r) as [Hr|Hr]|]; cbn [andb].
      2,3: exists 0; split; [reflexivity|]; split; [lra|]; split; [auto|]; split; intros; lra.
      assert (Hl : Lambda * r <> 0) by (apply Rmult_integral_contrapositive_currified; lra).
      destruct (Rle_dec c (Ct_of_k (Lambda * r) (18/10))) as [Hi|Hi].
      - destruct (Ct_of_k_ivt (Lambda * r) c Hl ltac:(lra) Hi) as (m & Hm & Em).
        destruct (HM (k_obj (Fin (Lambda * r) : XN) (Fin c : XN)) _ 0 (18/10) m
                     (fun x _ => k_obj_X (Lambda * r) c x Hl) (obj_unimodal _ _ _ Hl Hm (or_introl Em))) as (x & Ex & Bx & Tx).
        exists x. split; [exact Ex|]. split; auto. split; [intros; lra|]. split; [intros; exists m; auto|].
        intros _ _ Hle. assert (m = 18/10); [|subst; auto].
        destruct (Rtotal_order m (18/10)) as [Q|[Q|Q]]; auto; [|lra].
        pose proof (Ct_of_k_incr (Lambda * r) m (18/10) Hl ltac:(lra) Q). lra.
      - destruct (HM (k_obj (Fin (Lambda * r) : XN) (Fin c : XN)) _ 0 (18/10) (18/10)
                     (fun x _ => k_obj_X (Lambda * r) c x Hl) (obj_unimodal (Lambda * r) c (18/10) Hl ltac:(lra) ltac:(right; lra))) as (x & Ex & Bx & Tx).
        exists x. split; [exact Ex|]. split; auto. split; [intros; lra|]. split; [intros; lra|]. auto. }
    destruct X1 as (k & Ek & Kk). exists (k :: ks). cbn [map]. split; [|split; [cbn; lia|]].
    + f_equal; [exact Ek|exact E].
    + intros [|i] r0 c0 k0; cbn [nth_error]; intros A B D.
      * injection A; injection B; injection D; intros; subst. exact Kk.
      * eapply P; eauto.
Qed.
Theorem C38_no_swirl : forall minim rbar Ct Lambda,
  CirculationFromPrescribedCt (N := XN) minim rbar Ct Lambda false = Ct.
Proof. reflexivity. Qed.

(** a minimiser of zero tolerance exists (classically), so the hypothesis is consistent *)
Lemma unimodal_unique f lo hi m m' : unimodal f lo hi m -> unimodal f lo hi m' -> m = m'.
Proof.
  intros (B & D & I) (B' & D' & I'). destruct (Rtotal_order m m') as [H|[H|H]]; auto; exfalso.
  - pose proof (D' m m' ltac:(lra) H ltac:(lra)). pose proof (I m m' ltac:(lra) H ltac:(lra)). lra.
  - pose proof (D m' m ltac:(lra) H ltac:(lra)). pose proof (I' m' m ltac:(lra) H ltac:(lra)). lra.
Qed.
Theorem C38_minimiser_exists : exists minim, bounded_minimiser minim 0.
Proof.
  pose (P := fun (F : XN -> XN) (a b : XN) x => exists f lo hi m, a = Fin lo /\ b = Fin hi /\ x = Fin m /\
     (forall x, lo <= x <= hi -> F (Fin x) = Fin (f x)) /\ unimodal f lo hi m).
  exists (fun F a b => match ClassicalDescription.excluded_middle_informative (exists x, P F a b x) with
    | left H => proj1_sig (IndefiniteDescription.constructive_indefinite_description _ H) | right _ => NaN end).
  intros F f lo hi m HF HU.
  destruct (ClassicalDescription.excluded_middle_informative _) as [H|H].
  - destruct (IndefiniteDescription.constructive_indefinite_description _ H) as (x & f' & lo' & hi' & m' & E1 & E2 & E3 & HF' & HU').
    cbn. apply Fin_inj in E1, E2. subst. exists m'. split; auto.
    assert (m = m').
    { apply (unimodal_unique f' lo' hi'); auto. destruct HU as (B & D & I).
      assert (Q : forall x, lo' <= x <= hi' -> f x = f' x).
      { intros x Hx. apply Fin_inj. rewrite <- HF, <- HF'; auto. }
      split; auto. split; intros x y A1 A2 A3; rewrite <- !Q by lra; auto. }
    subst. split; [apply HU|]. rewrite Rminus_eq_0, Rabs_R0. lra.
  - exfalso. apply H. exists (Fin m). exists f, lo, hi, m. auto.
Qed.

(** ** C39 *)
Definition C39_full : Prop :=
  (forall (r_cp Gamma : list XN) Rt U0 Omega bS an bH w,
     WakeVorticityFromCirculation_Cont (N := XN) r_cp Gamma Rt U0 Omega bS an bH = Ok w -> w_rcp_after w = r_cp) /\
  (forall (rb lam k : list XN) bS an bH o,
     InductionsFromCirculation_VC_Cont (N := XN) rb lam k bS an bH = Ok o -> co_lambda_after o = lam) /\
  (forall (r_cp Gamma : list XN) Rt U0 Omega nB bS bT bH rc w,
     WakeVorticityFromCirculation_Discr (N := XN) r_cp Gamma Rt U0 Omega nB bS bT bH rc = Ok w -> w_rcp_after w = r_cp).
Lemma safety_nz (f : XN) l l' : safety (N := XN) f l = Ok l' -> (forall x, hd_error l = Some x -> neqb XN x (nZ XN 0) = false) -> l' = l.
Proof.
  unfold safety. destruct l as [|a l]; [discriminate|]. intros H K. rewrite (K a eq_refl) in H. apply Ok_inj in H. auto.
Qed.
Theorem C39_arguments_unchanged_partial :
  (* the discrete solver never writes to r_cp *)
  (forall (r_cp Gamma : list XN) Rt U0 Omega nB bS bT bH rc w,
     WakeVorticityFromCirculation_Discr (N := XN) r_cp Gamma Rt U0 Omega nB bS bT bH rc = Ok w -> w_rcp_after w = r_cp) /\
  (* the continuous ones do not when the first radius is not 0 *)
  (forall (r_cp Gamma : list XN) Rt U0 Omega bS an bH w, (forall x, hd_error r_cp = Some x -> neqb XN x (nZ XN 0) = false) ->
     WakeVorticityFromCirculation_Cont (N := XN) r_cp Gamma Rt U0 Omega bS an bH = Ok w -> w_rcp_after w = r_cp) /\
  (forall (rb lam k : list XN) bS an bH o, (forall x, hd_error lam = Some x -> neqb XN x (nZ XN 0) = false) ->
     InductionsFromCirculation_VC_Cont (N := XN) rb lam k bS an bH = Ok o -> co_lambda_after o = lam).
Proof.
  split; [|split].
  - intros r_cp Gamma Rt U0 Omega nB bS bT bH rc w. unfold WakeVorticityFromCirculation_Discr.
    destruct r_cp; [discriminate|].
    destruct (match rc with None => _ | Some r => r end) as [|rc0 rc']; [discriminate|].
    destruct (nlt XN _ _); [discriminate|]. destruct (neqb XN _ _); [discriminate|].
    intros E. apply Ok_inj in E. subst w. reflexivity.
  - intros r_cp Gamma Rt U0 Omega bS an bH w K. unfold WakeVorticityFromCirculation_Cont.
    destruct (safety (N := XN) (nQ XN 1 2) r_cp) as [l|] eqn:E; [|discriminate]. cbn [bind].
    apply safety_nz in E; auto. subst l.
    destruct (InductionsFromCirculation_VC_Cont _ _ _ _ _ _); [|discriminate]. cbn [bind].
    intros H. apply Ok_inj in H. subst w. reflexivity.
  - intros rb lam k bS an bH o K. unfold InductionsFromCirculation_VC_Cont.
    destruct (safety (N := XN) (nQ XN 1 100) lam) as [l|] eqn:E; [|discriminate]. cbn [bind].
    apply safety_nz in E; auto. subst l. destruct an; [|discriminate]. cbn [negb].
    intros H. apply Ok_inj in H. subst o. reflexivity.
Qed.
(** r_cp = [0, 2]: the caller's first radius becomes 1 *)
Theorem C39_refuted : ~ C39_full /\
  exists w, WakeVorticityFromCirculation_Cont (N := XN) [Fin 0 : XN; Fin 2 : XN] [Fin 1 : XN; Fin 1 : XN] (Fin 2) (Fin 1) (Fin 1) false true true = Ok w /\
    w_rcp_after w = [Fin 1 : XN; Fin 2 : XN].
Proof.
  assert (K : exists w, WakeVorticityFromCirculation_Cont (N := XN) [Fin 0 : XN; Fin 2 : XN] [Fin 1 : XN; Fin 1 : XN] (Fin 2) (Fin 1) (Fin 1) false true true = Ok w /\
    w_rcp_after w = [Fin 1 : XN; Fin 2 : XN]).
  { unfold WakeVorticityFromCirculation_Cont, safety at 1.
    change (neqb XN (Fin 0) (nZ XN 0)) with (Reqb 0 0). rewrite (proj2 (Reqb_true 0 0)) by reflexivity. cbn [bind].
    assert (E : nmul XN (Fin 2) (nQ XN 1 2) = Fin 1) by (xn; f_equal; field). rewrite E. cbn [map].
    change (ndiv XN) with xdiv. change (nmul XN (Fin 1) (Fin 1)) with (Fin (1*1)). change (nmul XN (Fin 1) (Fin 2)) with (Fin (1*2)).
    rewrite !(xdiv_fin _ 1) by lra. unfold InductionsFromCirculation_VC_Cont at 1, safety.
    change (neqb XN (Fin (1 * 1 / 1)) (nZ XN 0)) with (Reqb (1*1/1) 0).
    rewrite (proj2 (Reqb_false (1*1/1) 0)) by lra. cbn [bind negb]. eexists. split; reflexivity. }
  split; auto. intros (H & _ & _). destruct K as (w & E & Ew). specialize (H _ _ _ _ _ _ _ _ _ E).
  rewrite Ew in H. injection H. lra.
Qed.
Example C39_nonvacuous : (forall x : XN, hd_error [Fin 1 : XN; Fin 2 : XN] = Some x -> neqb XN x (nZ XN 0) = false).
Proof. intros x E. injection E; intros <-. apply Reqb_false. lra. Qed.

(** ** C40 *)
Theorem C40_continuous_is_momentum :
  forall (r_cp G : list R) (Rt U0 Omega : R), U0 <> 0 -> Omega <> 0 -> Rt <> 0 ->
  len G = len r_cp -> r_cp <> [] -> (forall r, In r r_cp -> 0 < r) ->
  exists w, WakeVorticityFromCirculation_Cont (N := XN) (map Fin r_cp) (map Fin G) (Fin Rt) (Fin U0) (Fin Omega) false true true = Ok w /\
    w_a w = map Fin (map (fun g => momentum_induction (Omega * g / (PI * U0 ^ 2))) G) /\
    w_ap w = map (fun _ => Fin 0) G.
Proof.
  intros r_cp G Rt U0 Omega HU HO HR HL Hne Hpos. pose proof PI_RGT_0 as HP.
  assert (D : PI * (U0 * U0) <> 0). { apply Rmult_integral_contrapositive_currified; [lra|]. pose proof (Rsqr_pos_lt U0 HU) as Q. unfold Rsqr in Q. lra. }
  assert (HS : forall f l, (forall r, In r l -> 0 < r) -> l <> [] -> safety (N := XN) f (map Fin l) = Ok (map Fin l)).
  { intros f [|a l] H H'; [congruence|]. cbn [map safety]. change (neqb XN (Fin a) (nZ XN 0)) with (Reqb a 0).
    rewrite (proj2 (Reqb_false a 0)); auto. pose proof (H a (or_introl eq_refl)). lra. }
  assert (HS' : forall f l, (forall r, In r l -> r <> 0) -> l <> [] -> safety (N := XN) f (map Fin l) = Ok (map Fin l)).
  { intros f [|a l] H H'; [congruence|]. cbn [map safety]. change (neqb XN (Fin a) (nZ XN 0)) with (Reqb a 0).
    rewrite (proj2 (Reqb_false a 0)); auto. pose proof (H a (or_introl eq_refl)). lra. }
  unfold WakeVorticityFromCirculation_Cont. nT. rewrite HS by auto. cbn [bind].
  rewrite (map_fin (fun g : X => ndiv XN (nmul XN (Fin Omega) g) (nmul XN (npi XN) (sq (Fin U0 : XN)))) (fun g => Omega * g / (PI * (U0 * U0)))).
  2: { intros a _. xn. rewrite xdiv_fin; auto. }
  rewrite (map_fin (fun r : X => ndiv XN (nmul XN (Fin Omega) r) (Fin U0)) (fun r => Omega * r / U0)).
  2: { intros a _. xn. rewrite xdiv_fin; auto. }
  set (kk := map (fun g => Omega * g / (PI * (U0 * U0))) G).
  unfold InductionsFromCirculation_VC_Cont. nT. rewrite HS'.
  2: { intros r Hr. apply in_map_iff in Hr. destruct Hr as (x & <- & Hx). pose proof (Hpos x Hx).
       unfold Rdiv. repeat apply Rmult_integral_contrapositive_currified; try lra. now apply Rinv_neq_0_compat. }
  2: { destruct r_cp; [congruence|discriminate]. }
  cbn [bind negb].
  rewrite (map_fin (fun k : X => nmul XN k (nZ XN 0)) (fun k => k * 0)) by (intros; reflexivity).
  rewrite (map2_fin _ (fun k a => k * (1 + a))) by (intros; reflexivity).
  rewrite (map2_fin _ (fun a b => a - b)) by (intros; reflexivity).
  assert (EK : map2 (fun a b => a - b) (map2 (fun k a => k * (1 + a)) kk (map (fun k => k * 0) kk)) (map (fun k => k * 0) kk) = kk).
  { clear. induction kk as [|k l IH]; [reflexivity|]. cbn [map map2]. rewrite IH. f_equal. ring. }
  rewrite EK. eexists. split; [reflexivity|]. cbn [w_a w_ap co_a co_ap]. split.
  - rewrite (map_fin (fun ct : X => if nlt XN (Ct_c (N := XN)) ct then spera (N := XN) ct else if nle XN ct (Ct_c (N := XN)) then mom (N := XN) ct else nZ XN 0) indR).
    + f_equal. unfold kk. rewrite map_map. apply map_ext. intros g. rewrite momentum_indR. f_equal. field. split; auto; lra.
    + intros a _. rewrite Ct_c_X. change (nlt XN (Fin CtC) (Fin a)) with (Rltb CtC a). change (nle XN (Fin a) (Fin CtC)) with (Rleb a CtC).
      unfold indR. destruct (Rlt_dec CtC a) as [H|H].
      * rewrite (proj2 (Rltb_true _ _)) by auto. apply spera_X.
      * rewrite (proj2 (Rltb_false _ _)) by lra. rewrite (proj2 (Rleb_true _ _)) by lra.
        unfold mom. unfold CtC in H. xn. rewrite xsqrt_fin by lra. unfold moR. f_equal. field.
  - unfold kk. clear. induction G as [|g G IH]; [reflexivity|]. cbn [map]. f_equal; [f_equal; ring|exact IH].
Qed.

(** The discrete solver (no tangential convection) gives the same inductions, as long as no
    Ct exceeds the high-thrust limit or the circulation is uniform *)
Lemma map2_fst_pair {A B} (l : list A) (m : list B) : len l = len m -> map fst (map2 pair l m) = l.
Proof. revert m. induction l as [|a l IH]; intros [|b m] H; try discriminate; auto. cbn [map2 map fst]. rewrite IH; auto. Qed.
Lemma nbR_low ks : (forall k, In k ks -> k <= CtC) -> nbR ks * nbR ks = 1 - hd 0 ks /\ 0 <= nbR ks.
Proof.
  induction ks as [|k t IH]; intros H; cbn [nbR hd]; [split; lra|].
  destruct IH as [IH IP]; [intros; apply H; now right|]. specialize (H k (or_introl eq_refl)).
  destruct (Rlt_dec CtC k); [lra|]. unfold CtC in H.
  split; [|apply sqrt_pos]. rewrite sqrt_sqrt; lra.
Qed.
Lemma nbR_uniform c n : nbR (repeat c (S n)) = 1 - 2 * indR c.
Proof.
  induction n as [|n IH].
  - cbn [repeat nbR hd]. unfold indR, moR. destruct (Rlt_dec CtC c); [ring|].
    replace (1 * 1 - (c - 0)) with (1 - c) by ring. field.
  - change (repeat c (S (S n))) with (c :: repeat c (S n)). cbn [nbR].
    destruct (Rlt_dec CtC c) as [H|H] eqn:E.
    + unfold indR. rewrite E. ring.
    + rewrite IH. change (hd 0 (repeat c (S n))) with c. unfold indR, moR. rewrite E. unfold CtC in H.
      replace ((1 - 2 * ((1 - sqrt (1 - c)) / 2)) * (1 - 2 * ((1 - sqrt (1 - c)) / 2)) - (c - c)) with (sqrt (1 - c) * sqrt (1 - c)) by field.
      rewrite sqrt_square by apply sqrt_pos. field.
Qed.
Lemma sufs_gn ks : (forall t k, (exists p, ks = p ++ k :: t) -> nbR (k :: t) = 1 - 2 * indR k) -> sufs (gnR ks) = map indR ks.
Proof.
  induction ks as [|k t IH]; intros H; [reflexivity|]. rewrite sufs_gnR. cbn [map]. f_equal.
  - rewrite (H t k) by (exists []; reflexivity). field.
  - apply IH. intros t' k' (p & E). apply H. exists (k :: p). cbn. now rewrite E.
Qed.
Lemma nbR_low_ind k t : (forall x, In x (k :: t) -> x <= CtC) -> nbR (k :: t) = 1 - 2 * indR k.
Proof.
  intros H. destruct (nbR_low (k :: t) H) as [E P]. cbn [hd] in E.
  pose proof (H k (or_introl eq_refl)). unfold indR, moR. destruct (Rlt_dec CtC k); [lra|].
  apply Rsqr_inj; auto.
  - pose proof (sqrt_pos (1 - k)). lra.
  - unfold Rsqr. rewrite E. unfold CtC in *.
    replace ((1 - 2 * ((1 - sqrt (1 - k)) / 2)) * (1 - 2 * ((1 - sqrt (1 - k)) / 2))) with (sqrt (1 - k) * sqrt (1 - k)) by field.
    rewrite sqrt_sqrt; lra.
Qed.
Theorem C40_discrete_is_momentum :
  forall r_cp G Rt U0 Omega nB r_cyl rc, good r_cp G Rt U0 Omega r_cyl rc ->
  (forall i, (i < len G)%nat -> k_ G U0 Omega nB i <= 4 * (34/100) * (1 - 34/100)) \/ (exists g, forall x, In x G -> x = g) ->
  exists w, discr r_cp G Rt U0 Omega nB false false true r_cyl = Ok w /\
    w_a w = map Fin (map (fun g => momentum_induction (g * nB * Omega / (PI * U0 ^ 2))) G).
Proof.
  intros r_cp G Rt U0 Omega nB r_cyl rc HG HK. pose proof (good_cyl _ _ _ _ _ _ _ HG) as ER. subst rc.
  pose proof PI_RGT_0 as HP.
  destruct HG as [_ H1 H2 H3 H4 H5 H6 H7].
  eexists. split; [apply (discr_ok r_cp G Rt U0 Omega nB r_cyl) with (bS := false) (bT := false) (bH := true); assumption|].
  cbn [w_a w_gt]. rewrite nosw_qs by auto.
  destruct (dloop_nosw (klR G (cyl_of r_cyl r_cp Rt) U0 Omega nB)) as (rl & bs & ce & E).
  { apply (kl_nz r_cp G Rt U0 Omega nB r_cyl); auto. }
  rewrite E. cbn [d_gs]. rewrite suffix_a_fin. f_equal.
  assert (EK : map fst (klR G (cyl_of r_cyl r_cp Rt) U0 Omega nB) = map (fun g => g * nB * Omega / (PI * (U0 * U0))) G).
  { unfold klR. apply map2_fst_pair. rewrite !map_length. congruence. }
  rewrite EK. rewrite sufs_gn.
  - rewrite map_map. apply map_ext. intros g. rewrite momentum_indR. f_equal. field. split; auto; lra.
  - intros t k (p & Ep). destruct HK as [HK|(g & Hg)].
    + apply nbR_low_ind. intros x Hx.
      assert (Hx' : In x (map (fun g => g * nB * Omega / (PI * (U0 * U0))) G)) by (rewrite Ep; apply in_or_app; now right).
      apply in_map_iff in Hx'. destruct Hx' as (g & <- & Hg'). destruct (In_nth G g 0 Hg') as (i & Hi & Ei).
      specialize (HK i Hi). unfold k_ in HK. rewrite Ei in HK. unfold CtC.
      replace (U0 * U0) with (U0 ^ 2) by ring. lra.
    + assert (Er : k :: t = repeat (g * nB * Omega / (PI * (U0 * U0))) (S (len t))).
      { apply (Forall_eq_repeat (x := g * nB * Omega / (PI * (U0 * U0))) (l := k :: t)). apply Forall_forall. intros x Hx.
        assert (Hx' : In x (map (fun g => g * nB * Omega / (PI * (U0 * U0))) G)) by (rewrite Ep; apply in_or_app; now right).
        apply in_map_iff in Hx'. destruct Hx' as (g' & <- & Hg'). now rewrite (Hg g' Hg'). }
      rewrite Er, nbR_uniform. injection Er. intros _ ->. reflexivity.
Qed.
Example C40_nonvacuous : good [20; 40] [3; 2] 50 10 1 None [30; 50] /\ (forall i, (i < len [3;2])%nat -> k_ [3;2] 10 1 1 i <= 4 * (34/100) * (1 - 34/100)).
Proof.
  split; [apply C31_nonvacuous|]. pose proof PI_RGT_0. pose proof PI2_1.
  assert (0 < / (PI * 10 ^ 2) < 1/200).
  { split; [apply Rinv_0_lt_compat; lra|]. replace (1/200) with (/200) by field. apply Rinv_lt_contravar; nra. }
  intros [|[|i]] Hi; cbn in Hi; try lia; unfold k_, Rdiv; cbn [nth]; nra.
Qed.
