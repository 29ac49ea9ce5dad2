(** * Properties of Solver.py: C28-C40 *)
From Coquelicot Require Import Coquelicot.
From Coq Require Import ZArith List Bool Arith Lia String Reals Lra Psatz.
From Verif Require Import Num NumR NumX M_Cylinder M_Solver M_Turbine L_List L_Turbine L_State L_TurbineX L_Multi L_X L_Solver.
Import ListNotations.
Local Open Scope R_scope.
Local Notation len := List.length.

(** ** Specification (no reference to the model) *)
(** induction of momentum theory below Ct_c = 4*0.34*(1-0.34), Spera's line above *)
Definition momentum_induction (ct : R) : R :=
  if Rlt_dec (4 * (34/100) * (1 - 34/100)) ct
  then (ct - 4 * (34/100 * (34/100))) / (4 * (1 - 2 * (34/100)))
  else (1 - sqrt (1 - ct)) / 2.
Definition sum_over (f : nat -> R) (from count : nat) : R := fold_right Rplus 0 (map f (seq from count)).
(** Eqs. (27),(32),(33),(38) of the paper, i = 0..n-1 counted from the root *)
Section Paper.
  Variables (G Rc : list R) (U0 Omega nB : R).
  Definition k_ i := nth i G 0 * nB * Omega / (PI * U0 ^ 2).
  Definition lam_ i := Omega * nth i Rc 0 / U0.
  Definition Ctrot_loc_ i := (k_ (S i) / 2) ^ 2 * (1 / lam_ i ^ 2 - 1 / lam_ (S i) ^ 2).
  Definition Ct_eff i :=
    k_ i * (1 + k_ i / (4 * lam_ i ^ 2)) - sum_over Ctrot_loc_ (S i) (len G - 2 - i).
End Paper.

Lemma momentum_indR c : momentum_induction c = indR c.
Proof.
  unfold momentum_induction, indR, moR, spR.
  replace (4 * (34/100) * (1 - 34/100)) with CtC by (unfold CtC; field).
  destruct (Rlt_dec CtC c); field.
Qed.

(** ** C28 *)
Theorem C28_Ct_const_cutoff :
  forall CT0 cut (tip : option R) (rs : list R), 0 < cut ->
  (forall t, tip = Some t -> cut <= t < 1) ->
  exists cs, Ct_const_cutoff (N := XN) (Fin CT0) (Fin cut) (option_map Fin tip) (map Fin rs) = map Fin cs /\
  len cs = len rs /\
  forall i r c, nth_error rs i = Some r -> nth_error cs i = Some c ->
    let t := match tip with Some t => t | None => r end in
    (r <= cut -> c = CT0 * (r / cut)) /\                        (* linear to 0 at the root *)
    (cut <= r -> r <= t -> c = CT0) /\
    (t <= r -> tip <> None -> c = CT0 * ((1 - r) / (1 - t))) /\ (* linear to 0 at radius 1 *)
    (0 <= CT0 -> 0 <= r <= 1 -> 0 <= c <= CT0).
Proof.
  intros CT0 cut tip rs Hc Ht.
  set (f := fun r => let c := if Rlt_dec r cut then CT0 * r / cut else CT0 in
     match tip with None => c | Some t => if Rlt_dec t r then CT0 * (1 - (r - t) / (1 - t)) else c end).
  exists (map f rs). split; [|split; [apply map_length|]].
  - unfold Ct_const_cutoff. apply (map_fin (Ct_const_cutoff_pt (N := XN) (Fin CT0) (Fin cut) (option_map Fin tip))). intros r _.
    unfold Ct_const_cutoff_pt, f. xn.
    assert (E : (if Rltb r cut then xdiv (Fin (CT0 * r)) (Fin cut) else Fin (1 * CT0)) =
                Fin (if Rlt_dec r cut then CT0 * r / cut else CT0)).
    { unfold Rltb. destruct (Rlt_dec r cut); [rewrite xdiv_fin by lra; reflexivity|f_equal; ring]. }
    rewrite E. destruct tip as [t|]; cbn [option_map]; [|reflexivity].
    specialize (Ht t eq_refl). rewrite xdiv_fin by lra. xn. unfold Rltb. destruct (Rlt_dec t r); reflexivity.
  - intros i r c Hr Hcc. rewrite nth_error_map, Hr in Hcc. cbn in Hcc. injection Hcc; intros <-. clear Hcc Hr.
    intros t.
    assert (Q : 0 <= r -> r <= cut -> 0 <= r / cut <= 1).
    { intros. split; [apply Rdiv_le_0_compat; lra|]. apply (Rmult_le_reg_r cut); [lra|]. unfold Rdiv.
      rewrite Rmult_assoc, Rinv_l by lra. lra. }
    destruct tip as [t'|]; cbn in t; unfold f; subst t.
    + specialize (Ht t' eq_refl).
      assert (E : forall x, 1 - (x - t') / (1 - t') = (1 - x) / (1 - t')) by (intros; field; lra).
      assert (P : t' <= r -> r <= 1 -> 0 <= (1 - r) / (1 - t') <= 1).
      { intros. split; [apply Rdiv_le_0_compat; lra|]. apply (Rmult_le_reg_r (1 - t')); [lra|]. unfold Rdiv.
        rewrite Rmult_assoc, Rinv_l by lra. lra. }
      destruct (Rlt_dec t' r), (Rlt_dec r cut); try lra; rewrite ?E; repeat split; intros; try lra.
      all: try (pose proof (P ltac:(lra) ltac:(lra))); try (pose proof (Q ltac:(lra) ltac:(lra))); try nra.
      all: try (unfold Rdiv; rewrite Rmult_assoc; fold (r / cut); nra).
      * assert (r = cut) by lra. subst. field. lra.
      * assert (r = t') by lra. subst. field. lra.
    + destruct (Rlt_dec r cut); repeat split; intros; try lra; try congruence.
      all: try (pose proof (Q ltac:(lra) ltac:(lra))); try nra.
      all: try (unfold Rdiv; rewrite Rmult_assoc; fold (r / cut); nra).
      assert (r = cut) by lra. subst. field. lra.
Qed.
Example C28_nonvacuous : 0 < 11/100 /\ (forall t, Some (9/10) = Some t -> 11/100 <= t < 1).
Proof. split; [lra|]. intros t E; injection E; intros <-; lra. Qed.

(** ** C29 *)
Theorem C29_stream_tube :
  forall Lambda bSwirl r Ct Cq,
  let '(a, ap) := InductionsFromPrescribedCtCq_ST (N := XN) (Fin Lambda) bSwirl (Fin r) (Fin Ct) (Fin Cq) in
  (a = NaN <-> 1 < Ct) /\
  (Ct <= 1 -> exists x, a = Fin x /\ Ct = 4 * x * (1 - x) /\ (forall y, Ct = 4 * y * (1 - y) -> x <= y) /\
     (forall Ct' y, Ct < Ct' -> Ct' <= 1 -> 
        fst (InductionsFromPrescribedCtCq_ST (N := XN) (Fin Lambda) bSwirl (Fin r) (Fin Ct') (Fin Cq)) = Fin y -> x < y) /\
     (bSwirl = true -> Lambda * r <> 0 -> exists x', ap = Fin x' /\ Cq = 4 * x' * (1 - x) * (Lambda * r)) /\
     (bSwirl = false -> ap = Fin 0)).
Proof.
  intros Lambda bSwirl r Ct Cq. unfold InductionsFromPrescribedCtCq_ST.
  change (nmul XN (nQ XN 1 2) (nsub XN (nZ XN 1) (nsqrt XN (nsub XN (nZ XN 1) (Fin Ct))))) with (mom (N := XN) (Fin Ct)).
  split.
  - split; intros H.
    + destruct (Rle_dec Ct 1) as [K|K]; [rewrite mom_X in H by auto; discriminate|lra].
    + apply mom_NaN; auto.
  - intros H. rewrite mom_X by auto. destruct (moR_quadratic Ct H) as [Q1 Q2].
    exists (moR Ct). split; [reflexivity|]. split; [lra|]. split; [|split; [|split]].
    + intros y Hy. unfold moR in *.
      assert (E : (1 - 2 * y) * (1 - 2 * y) = 1 - Ct) by lra.
      assert (1 - 2 * y <= sqrt (1 - Ct)); [|lra].
      destruct (Rle_dec (1 - 2 * y) 0); [pose proof (sqrt_pos (1 - Ct)); lra|].
      rewrite <- E, sqrt_square; lra.
    + intros Ct' y HC HC1 E. cbn [fst] in E.
      change (nmul XN (nQ XN 1 2) (nsub XN (nZ XN 1) (nsqrt XN (nsub XN (nZ XN 1) (Fin Ct'))))) with (mom (N := XN) (Fin Ct')) in E.
      rewrite mom_X in E by auto. injection E; intros <-. apply moR_incr; auto.
    + intros -> HL. xn.
      assert (D : 4 * (1 - moR Ct) * (Lambda * r) <> 0) by (apply Rmult_integral_contrapositive; split; auto; lra).
      rewrite xdiv_fin by auto. eexists; split; [reflexivity|]. field.
      apply Rmult_integral_contrapositive in HL as [? ?] || idtac.
      repeat split; try lra; intros K; apply HL; rewrite K; ring.
    + intros ->. reflexivity.
Qed.
Example C29_nonvacuous : 8/10 <= 1 /\ 6 * (1/2) <> 0.
Proof. split; lra. Qed.

(** ** C30 *)
(** The induction the code computes from Ct_eff, seen through the continuous solver
    without swirl (there Ct_eff = k), for every array. *)
Theorem C30_high_thrust_correction :
  exists f df : R -> R,
  (forall (k lam rbar : list R) out, 
     InductionsFromCirculation_VC_Cont (N := XN) (map Fin rbar) (map Fin lam) (map Fin k) false true true = Ok out ->
     co_Cteff out = map Fin k /\ co_a out = map Fin (map f k)) /\
  (forall c, f c = momentum_induction c) /\
  (forall c, is_derive f c (df c)) /\ (forall c, continuous df c) /\
  (forall c c', c < c' -> f c < f c').
Proof.
  exists indR, dindR. split; [|split; [|split; [|split]]].
  - intros k lam rbar out. unfold InductionsFromCirculation_VC_Cont.
    destruct (safety _ _) as [lam'|]; [|discriminate]. cbn [bind negb].
    intros E. apply Ok_inj in E. subst out. cbn [co_Cteff co_a].
    assert (EC : map2 (fun a b : XN => nsub XN a b)
       (map2 (fun k a : XN => nmul XN k (nadd XN (nZ XN 1) a)) (map Fin k) (map (fun k : XN => nmul XN k (nZ XN 0)) (map Fin k)))
       (map (fun k : XN => nmul XN k (nZ XN 0)) (map Fin k)) = map Fin k).
    { clear. induction k as [|a k IH]; [reflexivity|]. cbn [map map2]. nT. rewrite IH. f_equal. xn. f_equal. ring. }
    nT. rewrite EC. split; [reflexivity|].
    rewrite !map_map. apply map_ext. intros c. rewrite Ct_c_X.
    change (nlt XN (Fin CtC) (Fin c)) with (Rltb CtC c). change (nle XN (Fin c) (Fin CtC)) with (Rleb c CtC).
    unfold indR. destruct (Rlt_dec CtC c) as [H|H].
    + rewrite (proj2 (Rltb_true _ _)) by auto. apply spera_X.
    + rewrite (proj2 (Rltb_false _ _)), (proj2 (Rleb_true _ _)) by lra. apply mom_X. unfold CtC in H. lra.
  - intros c. symmetry. apply momentum_indR.
  - apply indR_deriv.
  - apply dindR_cont.
  - intros. apply indR_incr; auto.
Qed.
Example C30_nonvacuous : exists out,
  InductionsFromCirculation_VC_Cont (N := XN) (map Fin [1/2]) (map Fin [3]) (map Fin [8/10]) false true true = Ok out.
Proof.
  unfold InductionsFromCirculation_VC_Cont. cbn [map safety]. 
  change (neqb XN (Fin 3) (nZ XN 0)) with (Reqb 3 0). rewrite (proj2 (Reqb_false _ _)) by lra.
  eexists. reflexivity.
Qed.

(** ** C31 *)
Lemma cte_spec (kl : list (R * R)) i : (i < len kl)%nat ->
  nth i (cte kl) 0 =
  fst (nth i kl (0,0)) * (1 + fst (nth i kl (0,0)) / (4 * (snd (nth i kl (0,0)) * snd (nth i kl (0,0))))) -
  sum_over (fun j => fst (nth (S j) kl (0,0)) / 2 * (fst (nth (S j) kl (0,0)) / 2) *
     (1 / (snd (nth j kl (0,0)) * snd (nth j kl (0,0))) - 1 / (snd (nth (S j) kl (0,0)) * snd (nth (S j) kl (0,0)))))
     (S i) (len kl - 2 - i).
Proof.
  assert (RL : forall kl : list (R * R), lsum (rotloc kl) =
     sum_over (fun j => fst (nth (S j) kl (0,0)) / 2 * (fst (nth (S j) kl (0,0)) / 2) *
     (1 / (snd (nth j kl (0,0)) * snd (nth j kl (0,0))) - 1 / (snd (nth (S j) kl (0,0)) * snd (nth (S j) kl (0,0)))))
     0 (len kl - 1)).
  { clear. induction kl as [|[k a] kl IH]; [reflexivity|].
    change (lsum (rotloc ((k, a) :: kl))) with
      (match kl with [] => 0 | (k', a') :: _ => k' / 2 * (k' / 2) * (1 / (a * a) - 1 / (a' * a')) end + lsum (rotloc kl)).
    rewrite IH. destruct kl as [|[k' a'] kl]; [cbn; ring|].
    cbn [len]. replace (S (S (len kl)) - 1)%nat with (S (len kl)) by lia. replace (S (len kl) - 1)%nat with (len kl) by lia.
    unfold sum_over. cbn [seq map fold_right nth fst snd]. f_equal.
    rewrite <- seq_shift, map_map. reflexivity. }
  revert i. induction kl as [|[k a] kl IH]; intros i Hi; [cbn in Hi; lia|].
  destruct i as [|i].
  - cbn [cte nth fst snd]. rewrite RL. f_equal. unfold sum_over.
    rewrite <- seq_shift, map_map. cbn [len]. replace (S (len kl) - 2 - 0)%nat with (len kl - 1)%nat by lia.
    reflexivity.
  - cbn [cte nth]. rewrite IH by (cbn in Hi; lia). f_equal.
    unfold sum_over. rewrite <- (seq_shift _ (S i)), map_map. cbn [len]. replace (S (len kl) - 2 - S i)%nat with (len kl - 2 - i)%nat by lia. reflexivity.
Qed.
Lemma map2_pair_nth (a b : list R) i : len a = len b -> nth i (map2 pair a b) (0,0) = (nth i a 0, nth i b 0).
Proof. revert b i; induction a as [|x a IH]; intros [|y b] [|i] H; try discriminate; auto. cbn. apply IH. cbn in H; lia. Qed.
Lemma nth_map0 (f : R -> R) l i : f 0 = 0 -> nth i (map f l) 0 = f (nth i l 0).
Proof. intros H. rewrite <- H at 1. apply map_nth. Qed.
Lemma sum_over_ext f g a n : (forall i, f i = g i) -> sum_over f a n = sum_over g a n.
Proof. intros H. unfold sum_over. f_equal. apply map_ext. auto. Qed.
Lemma cte_Ct_eff G rc U0 Om nB i : len G = len rc -> (i < len G)%nat ->
  nth i (cte (klR G rc U0 Om nB)) 0 = Ct_eff G rc U0 Om nB i.
Proof.
  intros HL Hi. rewrite cte_spec by (rewrite klR_length; auto). rewrite klR_length by auto.
  assert (F : forall j, fst (nth j (klR G rc U0 Om nB) (0,0)) = k_ G U0 Om nB j).
  { intros j. unfold klR. rewrite map2_pair_nth by (rewrite !map_length; auto). cbn [fst].
    rewrite nth_map0 by (unfold Rdiv; ring). unfold k_. f_equal. f_equal. ring. }
  assert (S : forall j, snd (nth j (klR G rc U0 Om nB) (0,0)) = lam_ rc U0 Om j).
  { intros j. unfold klR. rewrite map2_pair_nth by (rewrite !map_length; auto). cbn [snd].
    rewrite nth_map0 by (unfold Rdiv; ring). reflexivity. }
  unfold Ct_eff. rewrite F, S. f_equal.
  - replace (lam_ rc U0 Om i ^ 2) with (lam_ rc U0 Om i * lam_ rc U0 Om i) by ring. reflexivity.
  - apply sum_over_ext. intros j. rewrite !F, !S. unfold Ctrot_loc_. 
    replace (lam_ rc U0 Om j ^ 2) with (lam_ rc U0 Om j * lam_ rc U0 Om j) by ring.
    replace (lam_ rc U0 Om (Datatypes.S j) ^ 2) with (lam_ rc U0 Om (Datatypes.S j) * lam_ rc U0 Om (Datatypes.S j)) by ring.
    ring.
Qed.

(** The inputs of the discrete solver: control radii, circulations, cylinder radii
    (given, or derived from the control radii). *)
Definition discr (r_cp G : list R) (Rt U0 Omega nB : R) bSwirl bTan bHigh (r_cyl : option (list R)) : result (wake XN) :=
  WakeVorticityFromCirculation_Discr (N := XN) (map Fin r_cp) (map Fin G) (Fin Rt) (Fin U0) (Fin Omega) (Fin nB)
    bSwirl bTan bHigh (option_map (map Fin) r_cyl).
(** the cylinder radii: given, or derived from the control radii (C35) *)
Record good (r_cp G : list R) (Rt U0 Omega : R) (r_cyl : option (list R)) (rc : list R) : Prop := {
  g_rc : match r_cyl with Some r => rc = r
         | None => default_r_cyl (N := XN) (map Fin r_cp) (Fin Rt) = map Fin rc end;
  g_ne : r_cp <> []; g_G : len G = len r_cp; g_l : len rc = len r_cp;
  g_U : U0 <> 0; g_O : Omega <> 0; g_nz : forall r, In r rc -> r <> 0;
  g_enc : exists r, In r rc /\ forall x, In x r_cp -> x <= r }.
Lemma good_cyl r_cp G Rt U0 Omega r_cyl rc : good r_cp G Rt U0 Omega r_cyl rc -> cyl_of r_cyl r_cp Rt = rc.
Proof.
  intros [E _ _ _ _ _ _ _]. unfold cyl_of. destruct r_cyl; [auto|]. rewrite default_r_cyl_X in E.
  apply map_fin_inj in E. exact E.
Qed.
Lemma nth_nth_error {A} (l : list A) i d : (i < len l)%nat -> nth_error l i = Some (nth i l d).
Proof. apply nth_error_nth'. Qed.

Theorem C31_discrete_solver_momentum :
  forall r_cp G Rt U0 Omega nB bTan r_cyl rc, good r_cp G Rt U0 Omega r_cyl rc ->
  exists w, discr r_cp G Rt U0 Omega nB true bTan true r_cyl = Ok w /\ len (w_a w) = len r_cp /\
  forall i, (i < len r_cp)%nat ->
    nth_error (w_a w) i = Some (Fin (momentum_induction (Ct_eff G rc U0 Omega nB i))).
Proof.
  intros r_cp G Rt U0 Omega nB bTan r_cyl rc HG. pose proof (good_cyl _ _ _ _ _ _ _ HG) as ER. subst rc.
  destruct HG as [_ H1 H2 H3 H4 H5 H6 H7].
  eexists. split; [apply (discr_ok r_cp G Rt U0 Omega nB r_cyl) with (bS := true) (bT := bTan) (bH := true); assumption|].
  cbn [w_a]. rewrite dloop_swirl by (eapply qs_nz; eauto). cbn [d_gs].
  rewrite kl_qs by auto. rewrite suffix_a_fin, sufs_gR.
  set (kl := klR _ _ _ _ _).
  assert (L : len kl = len r_cp) by (unfold kl; rewrite klR_length; congruence).
  split; [rewrite !map_length, cte_length; auto|].
  intros i Hi. rewrite nth_error_map, nth_error_map, (nth_nth_error (cte kl) i 0) by (rewrite cte_length; lia).
  cbn [option_map]. rewrite momentum_indR. unfold kl. rewrite cte_Ct_eff by (auto; congruence || lia). reflexivity.
Qed.
Example C31_nonvacuous : good [20; 40] [3; 2] 50 10 1 None [30; 50].
Proof.
  split; try lra; try reflexivity; try discriminate.
  - rewrite default_r_cyl_X. unfold rcR, default_r_cyl, midpoints. cbn. repeat f_equal; lra.
  - cbn. intros r [<-|[<-|[]]]; lra.
  - exists 50. cbn. split; [auto|]. intros x [<-|[<-|[]]]; lra.
Qed.

(** ** C32 *)
Definition all_finite (l : list XN) : Prop := forall x, In x l -> exists r, x = Fin r.
Lemma all_finite_map l : all_finite (map Fin l).
Proof. intros x Hx. apply in_map_iff in Hx. destruct Hx as (r & <- & _). eauto. Qed.
(** with swirl: finite for every loading *)
Theorem C32_finite_with_swirl_partial :
  forall r_cp G Rt U0 Omega nB bTan r_cyl rc, good r_cp G Rt U0 Omega r_cyl rc ->
  exists w, discr r_cp G Rt U0 Omega nB true bTan true r_cyl = Ok w /\
    len (w_gt w) = len r_cp /\ all_finite (w_gt w) /\ all_finite (w_a w).
Proof.
  intros r_cp G Rt U0 Omega nB bTan r_cyl rc HG. pose proof (good_cyl _ _ _ _ _ _ _ HG) as ER. subst rc.
  destruct HG as [_ H1 H2 H3 H4 H5 H6 H7].
  eexists. split; [apply (discr_ok r_cp G Rt U0 Omega nB r_cyl) with (bS := true) (bT := bTan) (bH := true); assumption|].
  cbn [w_a w_gt]. rewrite dloop_swirl by (eapply qs_nz; eauto). cbn [d_gs].
  rewrite kl_qs by auto. rewrite suffix_a_fin.
  rewrite (map_fin (fun g : XN => nmul XN g (Fin U0)) (fun g => g * U0)) by (intros; reflexivity).
  split; [|split; apply all_finite_map].
  rewrite !map_length, gR_length, cte_length, klR_length; congruence.
Qed.
(** without swirl: finite for every loading if the tangential convection correction is off *)
Lemma nosw_qs r_cp G Rt U0 Omega nB r_cyl : 
  len G = len r_cp -> len (cyl_of r_cyl r_cp Rt) = len r_cp -> U0 <> 0 ->
  map q4x (qsX r_cp G Rt U0 Omega nB r_cyl false) =
  map (fun p => (Fin (fst p) : XN, Fin (snd p) : XN, Fin 0 : XN, Fin (fst p) : XN)) (klR G (cyl_of r_cyl r_cp Rt) U0 Omega nB).
Proof.
  intros HG Hl HU. unfold qsX, CX, apX, GX, klR. set (rc := cyl_of r_cyl r_cp Rt) in *. clearbody rc.
  assert (L : len G = len rc) by congruence. clear r_cp Rt r_cyl HG Hl.
  revert rc L. induction G as [|g G IH]; intros [|r rc] L; try discriminate; [reflexivity|].
  cbn [map map2 qs_of]. unfold qs_of in *. cbn [map2 map]. rewrite IH by (cbn in L; lia). f_equal.
  cbn [q4x fst snd]. xn.
  assert (D : PI * (U0 * U0) <> 0).
  { pose proof PI_neq0. intros K. apply Rmult_integral in K. destruct K as [K|K]; auto. apply Rmult_integral in K; tauto. }
  rewrite xdiv_fin by auto. xn. f_equal; [|f_equal; ring]. f_equal. f_equal. ring.
Qed.
Theorem C32_finite_without_swirl_partial :
  forall r_cp G Rt U0 Omega nB r_cyl rc, good r_cp G Rt U0 Omega r_cyl rc ->
  exists w, discr r_cp G Rt U0 Omega nB false false true r_cyl = Ok w /\
    len (w_gt w) = len r_cp /\ all_finite (w_gt w) /\ all_finite (w_a w).
Proof.
  intros r_cp G Rt U0 Omega nB r_cyl rc HG. pose proof (good_cyl _ _ _ _ _ _ _ HG) as ER. subst rc.
  destruct HG as [_ H1 H2 H3 H4 H5 H6 H7].
  eexists. split; [apply (discr_ok r_cp G Rt U0 Omega nB r_cyl) with (bS := false) (bT := false) (bH := true); assumption|].
  cbn [w_a w_gt]. rewrite nosw_qs by auto.
  destruct (dloop_nosw (klR G (cyl_of r_cyl r_cp Rt) U0 Omega nB)) as (rl & bs & ce & E).
  { apply (kl_nz r_cp G Rt U0 Omega nB r_cyl); auto. }
  rewrite E. cbn [d_gs]. rewrite suffix_a_fin.
  rewrite (map_fin (fun g : XN => nmul XN g (Fin U0)) (fun g => g * U0)) by (intros; reflexivity).
  split; [|split; apply all_finite_map].
  assert (L : forall l, len (gnR l) = len l) by (induction l; cbn; auto).
  rewrite !map_length, L, map_length, klR_length; congruence.
Qed.
(** False without swirl when the tangential convection correction is on (the default):
    its wrong scaling (C33) can push the root's argument below 0. *)
Theorem C32_no_swirl_refuted :
  let Om := / (25600 * PI) in
  exists w, WakeVorticityFromGamma (N := XN) [Fin 1 : XN] [Fin (/ 20480000) : XN] (Fin 1) (Fin (Om / 20)) (Fin Om) = Ok w /\
    w_gt w = [NaN : XN].
Proof.
  intros Om. pose proof PI_RGT_0 as HP.
  assert (HO : 0 < Om) by (unfold Om; apply Rinv_0_lt_compat; lra).
  unfold WakeVorticityFromGamma, omega_fix. cbn [neqb XN xeqb ninf].
  change (ndiv XN) with xdiv. change (nmul XN (Fin Om) (Fin 1)) with (Fin (Om * 1)).
  rewrite xdiv_fin by lra. change (nlt XN (Fin (Om * 1 / (Om / 20))) (nZ XN 20)) with (Rltb (Om * 1 / (Om / 20)) 20).
  rewrite (proj2 (Rltb_false _ _)); [|right; field; lra].
  assert (G : good [1] [/ 20480000] 1 (Om / 20) Om None [1]).
  { split; try reflexivity; try discriminate; try lra.
    - intros r [<-|[]]; lra.
    - exists 1. split; [now left|]. intros x [<-|[]]; lra. }
  destruct G as [_ H1 H2 H3 H4 H5 H6 H7].
  eexists. split; [apply (discr_ok [1] [/ 20480000] 1 (Om / 20) Om 1 None) with (bS := false) (bT := true) (bH := true); auto|].
  cbn [w_gt]. unfold qsX, CX, apX, GX, klR, qs_of, cyl_of, rcR, default_r_cyl.
  cbn [map map2 ap_conv q4x fst snd dloop fold_right].
  unfold dstep, dinit. cbn [d_next d_gs d_rl d_bs d_ce map].
  assert (E1 : / 20480000 * 1 * Om / (PI * (Om / 20 * (Om / 20))) = 1/2).
  { unfold Om. field. lra. }
  rewrite E1, Ct_c_X.
  change (nsub XN (Fin (1/2)) (nZ XN 0)) with (Fin (1/2 - 0)).
  change (nlt XN (Fin CtC) (Fin (1/2 - 0))) with (Rltb CtC (1/2 - 0)).
  rewrite (proj2 (Rltb_false _ _)) by (unfold CtC; lra). cbn [andb].
  assert (E2 : forall x, 1 < x -> xsqrt (Fin (1 - x)) = NaN).
  { intros x Hx. unfold xsqrt. rewrite (proj2 (Rltb_true _ _)) by lra. reflexivity. }
  xn. rewrite !xdiv_fin; [|unfold Om; intros K; apply (f_equal (fun z => z * 40960000)) in K; revert K;
      replace (4 * PI * / (25600 * PI) * 1 * (4 * PI * / (25600 * PI) * 1) * 40960000) with 1 by (field; lra); lra
    | apply Rgt_not_eq, Rmult_lt_0_compat; [lra|apply Rmult_lt_0_compat; lra]].
  xn. rewrite E1. rewrite E2; [reflexivity|].
  replace (/ 20480000 * 1 / (4 * PI * Om * 1 * (4 * PI * Om * 1))) with 2 by (unfold Om; field; lra). lra.
Qed.

(** ** C33 *)
(** What the solver uses: the whole denominator 4*pi*Omega*R_i is squared.  Seen through
    the pitch: h_i = 2*pi*U0*(1-a_i-a_{i+1})/(Omega*(1+a'_c,i)). *)
Definition pitch (G rc : list R) (U0 Om nB : R) (a : list R) (ac : nat -> R) (i : nat) : R :=
  2 * PI * (U0 * (1 - nth i a 0 - nth (S i) a 0)) / (Om * (1 + ac i)).
Definition conv_documented (G rc : list R) (Om nB : R) (i : nat) : R :=
  (nth i G 0 * nB + nth (S i) G 0 * nB) / (4 * PI * Om * nth i rc 0 ^ 2).
Definition conv_as_coded (G rc : list R) (Om nB : R) (i : nat) : R :=
  (nth i G 0 * nB + nth (S i) G 0 * nB) / (4 * PI * Om * nth i rc 0) ^ 2.
Definition C33_full : Prop :=
  forall r_cp G Rt U0 Om nB r_cyl rc, good r_cp G Rt U0 Om r_cyl rc ->
  exists w a, discr r_cp G Rt U0 Om nB true true true r_cyl = Ok w /\ w_a w = map Fin a /\
    forall i, (i < len r_cp)%nat -> 1 + conv_documented G rc Om nB i <> 0 ->
      nth_error (w_h w) i = Some (Fin (pitch G rc U0 Om nB a (conv_documented G rc Om nB) i)).
Theorem C33_convection_as_coded_partial :
  forall r_cp G Rt U0 Om nB r_cyl rc, good r_cp G Rt U0 Om r_cyl rc ->
  exists w a, discr r_cp G Rt U0 Om nB true true true r_cyl = Ok w /\ w_a w = map Fin a /\
    forall i, (i < len r_cp)%nat -> 1 + conv_as_coded G rc Om nB i <> 0 ->
      nth_error (w_h w) i = Some (Fin (pitch G rc U0 Om nB a (conv_as_coded G rc Om nB) i)).
Proof.
  intros r_cp G Rt U0 Om nB r_cyl rc HG. pose proof (good_cyl _ _ _ _ _ _ _ HG) as ER.
  destruct HG as [_ H1 H2 H3 H4 H5 H6 H7]. rewrite <- ER in H3, H6, H7.
  eexists. exists (map indR (cte (klR G rc U0 Om nB))).
  split; [apply (discr_ok r_cp G Rt U0 Om nB r_cyl) with (bS := true) (bT := true) (bH := true); assumption|].
  cbn [w_a w_h]. rewrite dloop_swirl by (eapply qs_nz; eauto). cbn [d_gs d_bs]. rewrite kl_qs by auto.
  rewrite suffix_a_fin, sufs_gR. rewrite ER in *. split; [reflexivity|].
  set (ces := cte _).
  assert (Lc : len ces = len r_cp) by (unfold ces; rewrite cte_length, klR_length; congruence).
  intros i Hi Hnz. rewrite !map2_nth_error.
  rewrite !nth_error_map, (nth_nth_error (bR ces) i 0), (nth_nth_error (gR ces) i 0) by (rewrite ?bR_length, ?gR_length; lia).
  cbn [option_map].
  assert (EA : apX r_cp G Rt Om nB r_cyl true = map Fin (ap_conv (N := RN) Om (map (fun g => g * nB) G) rc)).
  { unfold apX, GX. rewrite ER. 
    rewrite (map_fin (fun g : XN => nmul XN g (Fin nB)) (fun g => g * nB)) by (intros; reflexivity).
    apply ap_conv_X; auto. rewrite map_length. congruence. }
  assert (EN : nth_error (apX r_cp G Rt Om nB r_cyl true) i = Some (Fin (conv_as_coded G rc Om nB i))).
  { rewrite EA. apply map_nth_error.
    eapply eq_trans; [apply (nth_nth_error _ i 0); eapply Nat.lt_le_trans; [|apply Nat.eq_le_incl; symmetry; apply (ap_conv_len RN)]; rewrite ?map_length; nT; change (T RN) with R in *; lia|].
    f_equal. rewrite ap_conv_nth by (rewrite ?map_length; change (T RN) with R in *; lia).
    rewrite !(nth_map0 (fun g => g * nB)) by ring. unfold conv_as_coded. f_equal. change (T RN) with R. ring. }
  rewrite EN. rewrite bR_nth, gR_nth by lia. xn. rewrite xdiv_fin by lra. xn.
  rewrite xdiv_fin by (apply Rmult_integral_contrapositive_currified; auto). unfold pitch. do 2 f_equal.
  f_equal. f_equal. field.
Qed.
Theorem C33_refuted : ~ C33_full.
Proof.
  intros H. pose proof PI_RGT_0 as HP. pose proof PI2_1 as HP1. pose proof PI_4 as HP4.
  assert (HG : good [1] [1] 1 1 1 None [1]).
  { split; try reflexivity; try discriminate; try lra.
    - intros r [<-|[]]; lra.
    - exists 1. split; [now left|]. intros x [<-|[]]; lra. }
  assert (D1 : conv_documented [1] [1] 1 1 0 = / (4 * PI)) by (unfold conv_documented; cbn; field; lra).
  assert (D2 : conv_as_coded [1] [1] 1 1 0 = / (4 * PI) * / (4 * PI)) by (unfold conv_as_coded; cbn; field; lra).
  assert (P1 : 0 < / (4 * PI)) by (apply Rinv_0_lt_compat; lra).
  destruct (H _ _ _ _ _ 1 _ _ HG) as (w & a & Ew & Ea & Hh).
  destruct (C33_convection_as_coded_partial _ _ _ _ _ 1 _ _ HG) as (w' & a' & Ew' & Ea' & Hh').
  rewrite Ew in Ew'. apply Ok_inj in Ew'. subst w'. rewrite Ea in Ea'. apply map_fin_inj in Ea'. subst a'.
  specialize (Hh 0%nat ltac:(cbn; lia) ltac:(rewrite D1; lra)).
  specialize (Hh' 0%nat ltac:(cbn; lia) ltac:(rewrite D2; nra)).
  rewrite Hh in Hh'. injection Hh'. unfold pitch. rewrite D1, D2. clear Hh Hh' H.
  (* the value of a *)
  destruct (C31_discrete_solver_momentum _ _ _ _ _ 1 true _ _ HG) as (w2 & E2 & _ & A2).
  rewrite Ew in E2. apply Ok_inj in E2. subst w2.
  specialize (A2 0%nat ltac:(cbn; lia)). rewrite Ea, nth_error_map in A2.
  destruct (C32_finite_with_swirl_partial _ _ _ _ _ 1 true _ _ HG) as (w3 & E3 & _ & _ & _).
  assert (La : len a = 1%nat).
  { destruct (C31_discrete_solver_momentum _ _ _ _ _ 1 true _ _ HG) as (w2 & E2 & L2 & _).
    rewrite Ew in E2. apply Ok_inj in E2. subst w2. rewrite Ea, map_length in L2. exact L2. }
  destruct a as [|a0 [|]]; try discriminate. cbn [nth_error option_map nth] in *. injection A2; intros ->. clear A2.
  assert (EC : Ct_eff [1] [1] 1 1 1 0 = / PI * (1 + / PI / 4)).
  { unfold Ct_eff, sum_over, k_, lam_. cbn. field. lra. }
  rewrite EC.
  assert (IP : 0 < / PI < 1/2).
  { split; [apply Rinv_0_lt_compat; lra|]. replace (1/2) with (/ 2) by field. apply Rinv_lt_contravar; lra. }
  assert (CB : 0 < / PI * (1 + / PI / 4) < 8/10) by nra.
  assert (M : 0 < momentum_induction (/ PI * (1 + / PI / 4)) < 1/2).
  { rewrite momentum_indR. replace 0 with (indR 0).
    - replace (1/2) with (moR 1) by (unfold moR; replace (1-1) with 0 by ring; rewrite sqrt_0; field).
      split; [apply indR_incr; lra|]. unfold indR. destruct (Rlt_dec CtC _) as [K|K]; [unfold CtC in K; lra|].
      apply moR_incr; lra.
    - unfold indR, moR. destruct (Rlt_dec CtC 0) as [K|K]; [unfold CtC in K; lra|]. rewrite Rminus_0_r, sqrt_1. field. }
  set (m := momentum_induction (/ PI * (1 + / PI / 4))) in *. set (p := / (4 * PI)) in *.
  assert (Hp : p < 1/4).
  { unfold p. replace (1/4) with (/ 4) by field. apply Rinv_lt_contravar; lra. }
  intros E.
  assert (N : 0 < 2 * PI * (1 * (1 - m - 0))) by (apply Rmult_lt_0_compat; lra).
  set (Nn := 2 * PI * (1 * (1 - m - 0))) in *.
  assert (CR : forall x y z, y <> 0 -> z <> 0 -> x / y = x / z -> x * z = x * y).
  { intros x y z Hy Hz K. apply (f_equal (fun u => u * y * z)) in K.
    replace (x / y * y * z) with (x * z) in K by (field; auto).
    replace (x / z * y * z) with (x * y) in K by (field; auto). exact K. }
  assert (0 < p * p) by (apply Rmult_lt_0_compat; auto).
  apply CR in E; [|lra|lra].
  assert (0 < Nn * (p * (1 - p))) by (apply Rmult_lt_0_compat; [auto|apply Rmult_lt_0_compat; lra]). lra.
Qed.

(** ** C34 *)
Theorem C34_vorticity_conserved :
  forall r_cp G Rt U0 Omega nB bTan bHigh r_cyl rc, good r_cp G Rt U0 Omega r_cyl rc ->
  (forall r, In r r_cp -> r <> 0) ->
  (exists w gl Gr, discr r_cp G Rt U0 Omega nB true bTan bHigh r_cyl = Ok w /\
     w_gl w = Some (map Fin gl) /\ w_Gr w = Some (Fin Gr) /\ len gl = len r_cp /\
     sum_over (fun i => nth i gl 0 * (2 * PI * nth i r_cp 0)) 0 (len r_cp) + Gr = 0) /\
  (exists w, discr r_cp G Rt U0 Omega nB false bTan bHigh r_cyl = Ok w /\ w_gl w = None /\ w_Gr w = None).
Proof.
  intros r_cp G Rt U0 Omega nB bTan bHigh r_cyl rc HG Hr. pose proof (good_cyl _ _ _ _ _ _ _ HG) as ER. subst rc.
  destruct HG as [_ H1 H2 H3 H4 H5 H6 H7].
  split.
  - set (GR := map (fun g => g * nB) G).
    assert (EG : GX G nB = map Fin GR).
    { unfold GX, GR. apply (map_fin (fun g : XN => nmul XN g (Fin nB)) (fun g => g * nB)). reflexivity. }
    eexists. exists (map2 (fun g r => g / (2 * PI * r)) (gtilde (N := RN) GR) r_cp), (- hd 0 GR).
    split; [apply (discr_ok r_cp G Rt U0 Omega nB r_cyl) with (bS := true) (bT := bTan) (bH := bHigh); assumption|].
    cbn [w_gl w_Gr]. rewrite EG, gtilde_X.
    assert (LG : len (gtilde (N := RN) GR) = len r_cp).
    { etransitivity; [apply (gtilde_len RN)|]. unfold GR. rewrite map_length. exact H2. }
    assert (Gne : GR <> []).
    { intros K. apply length_zero_iff_nil in K. unfold GR in K. rewrite map_length in K. destruct r_cp; [congruence|cbn in *; lia]. }
    split; [|split; [|split]].
    + f_equal. apply (map2_fin (fun g r : XN => ndiv XN g (nmul XN (nmul XN (nZ XN 2) (npi XN)) r)) (fun g r => g / (2 * PI * r))).
      intros i a b Ha Hb. xn. apply xdiv_fin. apply nth_error_In in Hb. pose proof PI_RGT_0.
      apply Rmult_integral_contrapositive_currified; [lra|auto].
    + f_equal. destruct GR; [congruence|reflexivity].
    + rewrite map2_length_eq; auto.
    + rewrite <- (gtilde_sum GR).
      assert (K : forall (g r : list R), len g = len r -> (forall x, In x r -> x <> 0) ->
        sum_over (fun i => nth i (map2 (fun g r => g / (2 * PI * r)) g r) 0 * (2 * PI * nth i r 0)) 0 (len r) = lsum g).
      { clear. induction g as [|a g IH]; intros [|b r] L Hn; try discriminate; [reflexivity|].
        cbn [len]. unfold sum_over. cbn [seq map fold_right]. rewrite <- seq_shift, map_map.
        change (lsum (a :: g)) with (a + lsum g). rewrite <- (IH r) by (try (intros; apply Hn; now right); cbn in L; lia).
        f_equal. cbn [map2 nth]. field. pose proof PI_neq0. split; auto. apply Hn. now left. }
      rewrite K by auto. ring.
  - eexists. split; [apply (discr_ok r_cp G Rt U0 Omega nB r_cyl) with (bS := false) (bT := bTan) (bH := bHigh); assumption|].
    split; reflexivity.
Qed.
Example C34_nonvacuous : good [20; 40] [3; 2] 50 10 1 None [30; 50] /\ (forall r, In r [20; 40] -> r <> 0).
Proof. split; [apply C31_nonvacuous|]. intros r [<-|[<-|[]]]; lra. Qed.

(** ** C35 *)
Theorem C35_cylinders_enclose :
  forall (r_cp : list R) (Rt : R), r_cp <> [] ->
  (forall i, (S i < len r_cp)%nat -> nth i r_cp 0 < nth (S i) r_cp 0) -> 0 < nth 0 r_cp 0 ->
  (len r_cp = 1%nat -> nth 0 r_cp 0 <= Rt) ->
  exists rc, default_r_cyl (N := XN) (map Fin r_cp) (Fin Rt) = map Fin rc /\ len rc = len r_cp /\
    (forall i, (i < len rc)%nat -> nth i r_cp 0 <= nth i rc 0 /\ 0 < nth i rc 0) /\
    (forall i, (S i < len rc)%nat -> nth i r_cp 0 < nth i rc 0 < nth (S i) r_cp 0 /\ nth i rc 0 < nth (S i) rc 0) /\
    (* the check never fires, and no NaN/zero radius reaches the solver *)
    (forall G U0 Omega, len G = len r_cp -> U0 <> 0 -> Omega <> 0 -> good r_cp G Rt U0 Omega None rc).
Proof.
  intros r_cp Rt Hne Hinc H0 H1.
  exists (rcR r_cp Rt). pose proof (rcR_length r_cp Rt Hne) as L. split; [apply default_r_cyl_X|]. split; [auto|].
  assert (Pos : forall i, (i < len r_cp)%nat -> 0 < nth i r_cp 0).
  { induction i as [|i IH]; intros Hi; auto. pose proof (Hinc i Hi). pose proof (IH ltac:(lia)). lra. }
  assert (Inc : forall j i, (j < len r_cp)%nat -> (i <= j)%nat -> nth i r_cp 0 <= nth j r_cp 0).
  { induction j as [|j IH]; intros i Hj Hi.
    - replace i with 0%nat by lia. lra.
    - destruct (Nat.eq_dec i (S j)) as [->|]; [lra|]. pose proof (Hinc j Hj). pose proof (IH i ltac:(lia) ltac:(lia)). lra. }
  assert (A : forall i, (i < len r_cp)%nat -> nth i r_cp 0 <= nth i (rcR r_cp Rt) 0 /\ 0 < nth i (rcR r_cp Rt) 0).
  { intros i Hi. destruct r_cp as [|a [|b r]]; [congruence| |].
    - destruct i as [|i]; [|cbn in Hi; lia]. cbn. cbn in H0, H1. specialize (H1 eq_refl). lra.
    - unfold rcR, default_r_cyl. rewrite midpoints_nth by (cbn in *; lia).
      pose proof (Pos i Hi) as Pi. match goal with |- context [if ?c then _ else _] => destruct c eqn:E end.
      + apply Nat.eqb_eq in E. destruct i as [|i]; [cbn in E; lia|].
        pose proof (Hinc i Hi) as K. replace (S i - 1)%nat with i by lia. change (T RN) with R in *. lra.
      + apply Nat.eqb_neq in E. pose proof (Hinc i ltac:(cbn in *; lia)) as K. change (T RN) with R in *. lra. }
  assert (Last : forall x, In x r_cp -> x <= nth (len r_cp - 1) r_cp 0).
  { intros x Hx. destruct (In_nth r_cp x 0 Hx) as (j & Hj & <-). apply Inc; lia. }
  split; [intros i Hi; apply A; lia|]. split.
  - intros i Hi. rewrite L in Hi.
    destruct r_cp as [|a [|b r]]; [congruence|cbn in Hi; lia|].
    unfold rcR, default_r_cyl. rewrite !midpoints_nth by (cbn in *; lia).
    match goal with |- context [if ?c then (nth i _ _ + _)%R else _] => replace c with false by (symmetry; apply Nat.eqb_neq; exact (Nat.lt_neq _ _ Hi)) end.
    pose proof (Hinc i Hi) as K. change (T RN) with R in *. split; [lra|].
    match goal with |- context [if ?c then _ else _] => destruct c eqn:E end.
    + replace (S i - 1)%nat with i by lia. lra.
    + apply Nat.eqb_neq in E. pose proof (Hinc (S i) ltac:(cbn in *; lia)). lra.
  - intros G U0 Omega HG HU HO. split; auto.
    + apply default_r_cyl_X.
    + intros r Hr. destruct (In_nth _ r 0 Hr) as (j & Hj & <-). pose proof (A j ltac:(lia)). lra.
    + assert (Hl : (0 < len r_cp)%nat) by (destruct r_cp; [congruence|cbn; lia]).
      exists (nth (len r_cp - 1) (rcR r_cp Rt) 0). split; [apply nth_In; lia|].
      intros x Hx. pose proof (A (len r_cp - 1)%nat ltac:(lia)). pose proof (Last x Hx). lra.
Qed.
Example C35_nonvacuous : (forall i, (S i < len [20; 40; 45])%nat -> nth i [20; 40; 45] 0 < nth (S i) [20; 40; 45] 0) /\ 0 < nth 0 [20;40;45] 0.
Proof. split; [|cbn; lra]. intros [|[|i]] H; cbn in *; try lra; lia. Qed.

(** ** C36 *)
Definition encloses (rc r_cp : list R) : Prop := exists r, In r rc /\ forall x, In x r_cp -> x <= r.
Theorem C36_first_cylinder :
  forall r_cp G Rt U0 Omega nB bS bT bH rc0, r_cp <> [] -> encloses (0 :: rc0) r_cp ->
  discr r_cp G Rt U0 Omega nB bS bT bH (Some (0 :: rc0)) = Err (EException "First cylinder at 0, impossible").
Proof.
  intros r_cp G Rt U0 Omega nB bS bT bH rc0 Hne (rm & Irm & Urm).
  unfold discr, WakeVorticityFromCirculation_Discr. cbn [option_map].
  destruct (amax_fin r_cp Hne) as (M & EM & IM & _).
  destruct (amax_fin (0 :: rc0) ltac:(discriminate)) as (M' & EM' & _ & UM').
  nT. rewrite EM, EM'. change (nlt XN (Fin M') (Fin M)) with (Rltb M' M).
  rewrite (proj2 (Rltb_false _ _)) by (pose proof (UM' _ Irm); pose proof (Urm _ IM); lra).
  destruct r_cp; [congruence|]. cbn [map]. change (neqb XN (Fin 0) (nZ XN 0)) with (Reqb 0 0).
  rewrite (proj2 (Reqb_true _ _)) by reflexivity. reflexivity.
Qed.
(** The other check fails with NameError (the module warnings is not imported) instead
    of warning, for every input that violates it. *)
Definition C95_full : Prop :=
  forall r_cp G Rt U0 Omega nB bS bT bH rc, r_cp <> [] -> rc <> [] -> ~ encloses rc r_cp ->
  forall v, discr r_cp G Rt U0 Omega nB bS bT bH (Some rc) <> Err (ENameError v).
Theorem C95_warning_refuted :
  (forall r_cp G Rt U0 Omega nB bS bT bH rc, r_cp <> [] -> rc <> [] -> ~ encloses rc r_cp ->
   discr r_cp G Rt U0 Omega nB bS bT bH (Some rc) = Err (ENameError "warnings")) /\ ~ C95_full.
Proof.
  assert (K : forall r_cp G Rt U0 Omega nB bS bT bH rc, r_cp <> [] -> rc <> [] -> ~ encloses rc r_cp ->
   discr r_cp G Rt U0 Omega nB bS bT bH (Some rc) = Err (ENameError "warnings")).
  { intros r_cp G Rt U0 Omega nB bS bT bH rc Hne Hrc Hn.
    unfold discr, WakeVorticityFromCirculation_Discr. cbn [option_map].
    destruct (amax_fin r_cp Hne) as (M & EM & IM & UM).
    destruct (amax_fin rc Hrc) as (M' & EM' & IM' & UM').
    nT. rewrite EM, EM'. change (nlt XN (Fin M') (Fin M)) with (Rltb M' M).
    rewrite (proj2 (Rltb_true _ _)).
    - destruct r_cp; [congruence|]. destruct rc; [congruence|]. reflexivity.
    - destruct (Rlt_le_dec M' M) as [H|H]; auto. exfalso. apply Hn. exists M'. split; auto.
      intros x Hx. pose proof (UM x Hx). lra. }
  split; auto. intros H.
  apply (H [2] [1] 1 1 1 1 true true true [1] ltac:(discriminate) ltac:(discriminate)) with "warnings"%string.
  - intros (r & [<-|[]] & U). specialize (U 2 (or_introl eq_refl)). lra.
  - apply K; try discriminate. intros (r & [<-|[]] & U). specialize (U 2 (or_introl eq_refl)). lra.
Qed.

(** ** C37 *)
Definition C37_full (minim : (XN -> XN) -> XN -> XN -> XN) : Prop :=
  forall (r x : list XN) Rt U0 w, 0 < Rt -> 0 < U0 ->
  (WakeVorticityFromGamma (N := XN) r x (Fin Rt) (Fin U0) PInf = Ok w \/
   WakeVorticityFromCt (N := XN) minim r x (Fin Rt) (Fin U0) PInf = Ok w) ->
  w_gl w = None /\ w_Gr w = None.
Lemma discr_noswirl (N : Num) (r_cp Gamma : list N) (R U0 Omega nB : N) bT bH r_cyl w :
  WakeVorticityFromCirculation_Discr r_cp Gamma R U0 Omega nB false bT bH r_cyl = Ok w ->
  w_gl w = None /\ w_Gr w = None.
Proof.
  unfold WakeVorticityFromCirculation_Discr. destruct r_cp; [discriminate|].
  destruct (match r_cyl with None => _ | Some r => r end) as [|rc0 rc']; [discriminate|].
  destruct (nlt N _ _); [discriminate|]. destruct (neqb N _ _); [discriminate|].
  intros E. apply Ok_inj in E. subst w. split; reflexivity.
Qed.
Theorem C37_infinite_tsr_partial :
  forall minim (r x : list XN) Rt U0 w, 0 < U0 -> U0 / 40 <= Rt ->
  (WakeVorticityFromGamma (N := XN) r x (Fin Rt) (Fin U0) PInf = Ok w \/
   WakeVorticityFromCt (N := XN) minim r x (Fin Rt) (Fin U0) PInf = Ok w) ->
  w_gl w = None /\ w_Gr w = None.
Proof.
  intros minim r x Rt U0 w HU HR.
  assert (S : nlt XN (ndiv XN (nmul XN (omega_fix (N := XN) PInf) (Fin Rt)) (Fin U0)) (nZ XN 20) = false).
  { unfold omega_fix. xn. rewrite xdiv_fin by lra. cbn [xlt]. apply Rltb_false.
    apply (Rmult_le_reg_r U0); auto. unfold Rdiv. rewrite Rmult_assoc, Rinv_l by lra. lra. }
  intros [E|E].
  - unfold WakeVorticityFromGamma in E. rewrite S in E. eapply discr_noswirl; eauto.
  - unfold WakeVorticityFromCt in E. rewrite S in E. eapply discr_noswirl; eauto.
Qed.
Theorem C37_small_rotor_refuted : forall minim, ~ C37_full minim.
Proof.
  intros minim H. pose proof PI_RGT_0 as HP.
  assert (G : good [1] [1] 1 80 800 None [1]).
  { split; try reflexivity; try discriminate; try lra.
    - intros r [<-|[]]; lra.
    - exists 1. split; [now left|]. intros x [<-|[]]; lra. }
  destruct (C34_vorticity_conserved _ _ _ _ _ 1 true true _ _ G) as [(w & gl & Gr & E & E1 & _) _].
  { intros r [<-|[]]; lra. }
  destruct (H [Fin 1 : XN] [Fin 1 : XN] 1 80 w ltac:(lra) ltac:(lra)) as [K _].
  - left. unfold WakeVorticityFromGamma.
    assert (S : nlt XN (ndiv XN (nmul XN (omega_fix (N := XN) PInf) (Fin 1)) (Fin 80)) (nZ XN 20) = true).
    { unfold omega_fix. xn. rewrite xdiv_fin by lra. cbn [xlt]. apply Rltb_true. lra. }
    rewrite S. exact E.
  - rewrite E1 in K. discriminate.
Qed.
Example C37_nonvacuous : 0 < 10 /\ 10 / 40 <= 50 /\ exists w,
  WakeVorticityFromGamma (N := XN) [Fin 20 : XN; Fin 40 : XN] [Fin 3 : XN; Fin 2 : XN] (Fin 50) (Fin 10) PInf = Ok w.
Proof.
  split; [lra|]. split; [lra|].
  assert (S : nlt XN (ndiv XN (nmul XN (omega_fix (N := XN) PInf) (Fin 50)) (Fin 10)) (nZ XN 20) = false).
  { unfold omega_fix. xn. rewrite xdiv_fin by lra. cbn [xlt]. apply Rltb_false. lra. }
  unfold WakeVorticityFromGamma. rewrite S.
  destruct (C34_vorticity_conserved [20;40] [3;2] 50 10 800 1 true true None [30;50]) as [_ (w & E & _)].
  - destruct C31_nonvacuous. constructor; try assumption; lra.
  - intros r [<-|[<-|[]]]; lra.
  - exists w. exact E.
Qed.
