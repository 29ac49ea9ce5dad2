(** * C132: the axial velocity at the rotor of a turbine loaded with several circulation stations *)
From Coquelicot Require Import Coquelicot.
From Coq Require Import ZArith List Bool Arith Lia String Reals Lra Psatz.
From Verif Require Import Num NumR NumX Spec M_Elliptic M_Line M_Doublet M_Misc M_Cylinder M_Skewed
  M_Solver M_Turbine L_List L_Calc L_Ell L_Cyl L_X L_Turbine L_State L_Farm L_Geom L_Angles L_TurbineX L_TurbineY L_Multi L_Built L_Solver
  P_Turbine P_Line P_Skewed P_Cylinder P_Cylinder2 P_Cylinder3 P_Grid P_Solver P_Loading P_Centre P_Swirl.
Import ListNotations.
Local Notation len := List.length.
Local Open Scope R_scope.

(** ** Several cylinders of tangential vorticity, in the plane of the rotor *)
Fixpoint disks (gs rs : list R) (r : R) : R :=
  match gs, rs with g :: gs, R0 :: rs => disk g R0 r + disks gs rs r | _, _ => 0 end.
Lemma tang_plane1 g R (Y : list R3) i q : 0 < R -> nth_error Y i = Some q -> pz q = 0 -> off_rim R (rho q) ->
  exists a, nth_error (vc_tang_u (N := XN) (Fin g) (Fin R) (Fin 0) (map lift3 Y)) i = Some (lift3 a) /\ pz a = disk g R (rho q).
Proof.
  intros hR Hi Hz HO. destruct q as [[x y] z]. change (pz (x, y, z)) with z in Hz. subst z.
  assert (ER : sqrt (x ^ 2 + y ^ 2) = rho (x, y, 0)) by (unfold rho, px, py; cbn [fst snd]; f_equal; ring).
  destruct (C51_rotor_disk g R Y i x y hR Hi) as (ur & uz & ux & uy & _ & E & _ & HV). cbv zeta in HV. rewrite ER in HV. specialize (HV HO).
  exists (ux, uy, uz). split; [exact E|]. change (pz (ux, uy, uz)) with uz. set (r := rho (x, y, 0)) in *.
  unfold disk. destruct (Rltb_spec r R) as [A|A]; [apply HV; auto|].
  destruct (Req_dec r R) as [B|B]; [|apply HV; lra].
  exfalso. unfold off_rim in HO. rewrite B, Rminus_eq_0, Rabs_R0 in HO. unfold Rdiv in HO. rewrite Rmult_0_l in HO. lra.
Qed.
Lemma vcs_tang_plane : forall (gs rs : list R) (Y : list R3) i q (u : list xpt) a,
  (forall x, In x rs -> 0 < x) -> nth_error Y i = Some q -> pz q = 0 -> (forall x, In x rs -> off_rim x (rho q)) ->
  nth_error u i = Some (lift3 a) ->
  exists b, nth_error (fold_left (fun u (gr : XN * XN) => if nlt XN (nZ XN 0) (nabs XN (fst gr)) then fadd u (vc_tang_u (N := XN) (fst gr) (snd gr) (Fin 0) (map lift3 Y)) else u)
    (map2 pair (map Fin gs) (map Fin rs)) u) i = Some (lift3 b) /\ pz b = pz a + disks gs rs (rho q).
Proof.
  induction gs as [|g gs IH]; intros [|R0 rs] Y i q u a Hp Hi Hz HN Hu; cbn [map map2 fold_left disks]; try (exists a; split; [exact Hu|ring]).
  cbn [fst snd]. change (nlt XN (nZ XN 0) (nabs XN (Fin g))) with (Rltb 0 (Rabs g)).
  assert (K : exists a', nth_error (if Rltb 0 (Rabs g) then fadd u (vc_tang_u (N := XN) (Fin g) (Fin R0) (Fin 0) (map lift3 Y)) else u) i = Some (lift3 a') /\ pz a' = pz a + disk g R0 (rho q)).
  { destruct (Rltb_spec 0 (Rabs g)) as [G|G].
    - destruct (tang_plane1 g R0 Y i q) as (b & E & PB); auto; [apply Hp; now left|apply HN; now left|].
      exists (add3 a b). split; [apply fadd_at; auto|]. rewrite <- PB. reflexivity.
    - assert (g = 0) as ->. { destruct (Req_dec g 0) as [E|E]; auto. apply Rabs_pos_lt in E. lra. }
      exists a. split; auto. unfold disk. destruct (Rltb (rho q) R0); lra. }
  destruct K as (a' & E & PA). destruct (IH rs Y i q _ a' (fun x h => Hp x (or_intror h)) Hi Hz (fun x h => HN x (or_intror h)) E) as (b & EB & PB).
  exists b. split; [exact EB|]. rewrite PB, PA. ring.
Qed.
Lemma tang_several t sh v hub U Rr yaw c o (ps : list R3) i p gs rs :
  WF t sh v hub U Rr yaw -> tang_only o -> model_of t o = "VC"%string -> ground_on t o = false -> skew_is t sh v U yaw c -> Rabs c <= 1 / 10000000 ->
  nth_error ps i = Some p ->
  let shaft := rotate v yaw sh in let free := if o_only_ind o then zero else U in let r := length3 (sub3 p hub) in
  inner (sub3 p hub) shaft = 0 ->
  t_gt t = Some (map Fin gs : list XN) -> t_r t = Some (map Fin rs : list XN) -> (exists gl : option (list R), t_gl t = Some (option_map (map Fin) gl : option (list XN)) /\ forall l, gl = Some l -> len l = len rs) ->
  len gs = len rs -> len rs <> 1%nat -> (forall x, In x rs -> 0 < x) -> (forall x, In x rs -> off_rim x r) ->
  exists us w, snd (compute_u t o (map lift3 ps)) = Ok us /\ nth_error us i = Some (lift3 w) /\ inner w shaft = inner free shaft + disks gs rs r.
Proof.
  intros H HO HM HN SK Hc Hi shaft free r HP ET ER (gl & EL & LL) L1 L3 Hp Hx. pose proof HO as (O1 & O2 & O3 & O4).
  pose proof (skew_chi _ _ _ _ _ _ _ _ H SK) as EC. pose proof (wf_frame _ _ _ _ _ _ _ H) as HF.
  set (q := loc sh v yaw hub p). set (Y := map (loc sh v yaw hub) ps).
  assert (Q1 : rho q = r) by (apply rho_loc; auto). assert (Q2 : pz q = 0) by (apply (plane_radius sh v yaw hub p HF HP)).
  assert (Q3 : nth_error Y i = Some q) by (unfold Y; rewrite nth_error_map, Hi; reflexivity).
  assert (Q4 : (i < len (map lift3 ps))%nat) by (rewrite map_length; apply nth_error_Some; rewrite Hi; discriminate).
  assert (EM : exists w b, multi_terms t o "VC" (Fin c) (map Fin gs) false (transform_T (T_c2g t) (t_rhub t)) (map (transform_T (T_c2g t)) (map lift3 ps)) = Ok [w] /\
            nth_error w i = Some (lift3 b) /\ pz b = disks gs rs r).
  { destruct (vcs_tang_plane gs rs Y i q (fzero (map (transform_T (T_c2g t)) (map lift3 ps))) zero) as (b & EB & PB); rewrite ?Q1; auto; [apply fzero_at; rewrite map_length; exact Q4|].
    unfold multi_terms. cbn [String.eqb Ascii.eqb Bool.eqb]. rewrite ER, EL, O1, O2. rewrite !map_length, L1, Nat.eqb_refl. cbn [negb].
    match goal with |- context [if ?b then Err EValueError else _] => replace b with false
      by (destruct gl as [l|]; [cbn [option_map]; rewrite map_length, (LL l), Nat.eqb_refl by auto|]; reflexivity) end.
    rewrite skewed_fin. replace (Rltb (1 / 10000000) (Rabs c)) with false by (symmetry; apply Rltb_false; lra). eexists _, b. split; [reflexivity|]. split.
    - unfold vcs_tang_u, vcs_tang_u_gen. cbn [fold_left fst snd]. unfold ylist. cbn [fold_left]. rewrite local_map, (loc_map _ _ _ _ _ _ _ _ H). fold Y. exact EB.
    - rewrite PB, Q1. unfold zero, pz. cbn [snd]. ring. }
  destruct EM as (w & b & EM & NW & PB).
  exists (finish t o (map lift3 ps) (fsum (fzero (map lift3 ps)) [w])), (add3 (mv (c2g sh v yaw) b) free). split; [|split].
  - rewrite compute_u_terms, ET. unfold terms. unfold ground_on in HN. unfold model_of in HM. rewrite HN, HM, EC. unfold root_terms. rewrite O3. cbn [bind].
    destruct gs as [|g0 [|g1 gs]]; [|cbn [len] in L1; congruence|]; cbn [map] in *; rewrite EM; reflexivity.
  - apply (finish_at _ _ _ _ _ _ _ _ _ _ _ _ H); auto. unfold fsum. cbn [fold_left]. rewrite <- (add3_z_l b). apply fadd_at; auto. apply fzero_at; auto.
  - rewrite inner_add_l. unfold shaft at 1. rewrite shaft_comp, PB by auto. ring.
Qed.
(** inside the j-th cylinder and outside those before it, the sum is that of the cylinders from the j-th on *)
Lemma disks_in : forall gs rs r j, len gs = len rs -> increasing rs -> (j < len rs)%nat -> (forall i, (i < j)%nat -> nth i rs 0 < r) -> r < nth j rs 0 ->
  disks gs rs r = - nth j (sufs gs) 0.
Proof.
  induction gs as [|g gs IH]; intros [|a rs] r j L HI Hj Hb Ha; cbn [len] in *; try lia. destruct j as [|j].
  - cbn [nth sufs disks] in *. assert (A : forall l m, (forall x, In x m -> r < x) -> len l = len m -> disks l m r = lsum l / 2).
    { clear. induction l as [|g l IH]; intros [|a m] Hm L; try discriminate; [cbn; lra|]. cbn [disks]. rewrite IH; [|intros; apply Hm; now right|cbn in L; lia].
      unfold disk. rewrite (proj2 (Rltb_true r a)) by (apply Hm; now left). change (lsum (g :: l)) with (g + lsum l). lra. }
    rewrite A by (try lia; intros x Hx; apply Rlt_trans with a; auto; eapply incr_hd; eauto).
    unfold disk. rewrite (proj2 (Rltb_true r a)) by auto. change (lsum (g :: gs)) with (g + lsum gs). lra.
  - cbn [nth sufs disks] in *. rewrite (IH rs r j); [|lia|eapply incr_tl; eauto|lia|intros i Hi; apply (Hb (S i)); lia|auto].
    unfold disk. rewrite (proj2 (Rltb_false r a)); [lra|]. left. apply (Hb O). lia.
Qed.
Lemma disks_out : forall gs rs r, (forall x, In x rs -> x < r) -> disks gs rs r = 0.
Proof.
  induction gs as [|g gs IH]; intros [|a rs] r Hx; try reflexivity. cbn [disks]. rewrite IH by (intros; apply Hx; now right).
  unfold disk. rewrite (proj2 (Rltb_false r a)) by (left; apply Hx; now left). ring.
Qed.

(** ** What the solver stores *)
(** the cylinder radii used by the solver: midway between the stations, the last one extrapolated (C35) *)
Definition mid_radius (rs : list R) (i : nat) : R :=
  if (S i <? len rs)%nat then (nth i rs 0 + nth (S i) rs 0) / 2 else nth i rs 0 + (nth i rs 0 - nth (i - 1) rs 0) / 2.
Definition mid_radii (rs : list R) : list R := map (mid_radius rs) (seq 0 (len rs)).
Lemma midpoints_spec : forall rs, (2 <= len rs)%nat -> midpoints (N := RN) rs = mid_radii rs.
Proof.
  assert (K : forall rs a b, midpoints (N := RN) (a :: b :: rs) = mid_radii (a :: b :: rs)).
  { induction rs as [|d rs IH]; intros a b.
    - change (midpoints (N := RN) [a; b]) with [(b + a) / 2; b + (b - a) / 2]. change (mid_radii [a; b]) with [(a + b) / 2; b + (b - a) / 2]. f_equal. lra.
    - change (midpoints (N := RN) (a :: b :: d :: rs)) with ((b + a) / 2 :: midpoints (N := RN) (b :: d :: rs)). rewrite IH. unfold mid_radii.
      change (seq 0 (len (a :: b :: d :: rs))) with (O :: seq 1 (len (b :: d :: rs))). cbn [map]. f_equal; [unfold mid_radius; cbn; lra|].
      rewrite <- (seq_shift (len (b :: d :: rs)) 0), map_map. apply map_ext_in. intros i Hi. unfold mid_radius. cbn [len].
      change (S (S i) <? S (S (S (len rs))))%nat with (S i <? S (S (len rs)))%nat. destruct i as [|i]; [reflexivity|]. cbn [nth Nat.sub]. rewrite Nat.sub_0_r. reflexivity. }
  intros [|a [|b rs]] L; cbn in L; try lia. apply K.
Qed.
Lemma load_profile minim t sh v hub U Rr yaw rs Gs l : WF t sh v hub U Rr yaw -> 0 < Rr -> 0 < length3 U -> 0 < l < 20 ->
  (2 <= len rs)%nat -> len Gs = len rs -> increasing rs -> (forall x, In x rs -> 0 < x) ->
  exists t' gb gl, update_loading minim (Some (map Fin rs : list XN)) None (Some (map Fin Gs : list XN)) (Some (Fin l : XN)) None None t = (t', Ok tt) /\
    t_gt t' = Some (map Fin (map (fun g => g * length3 U) gb) : list XN) /\ len gb = len rs /\ t_gl t' = Some (option_map (map Fin) gl) /\ (forall x, gl = Some x -> len x = len rs) /\
    t_r t' = Some (map Fin rs : list XN) /\ t_chi t' = t_chi t /\ t_ground t' = t_ground t /\ t_model t' = t_model t /\
    forall j, (j < len rs)%nat -> nth j (sufs gb) 0 = momentum_induction (Ct_eff Gs (mid_radii rs) (length3 U) (l * length3 U / Rr) 1 j).
Proof.
  intros H hR hU Hl H2 HG HI Hp. set (Un := length3 U) in *. set (Om := l * Un / Rr).
  assert (hO : 0 < Om) by (unfold Om; apply Rdiv_lt_0_compat; auto; apply Rmult_lt_0_compat; lra).
  assert (Hne : rs <> []) by (intros ->; cbn in H2; lia).
  assert (P0 : 0 < nth 0 rs 0) by (apply Hp; destruct rs; [congruence|now left]).
  destruct (C35_cylinders_enclose rs Rr Hne HI P0 ltac:(lia)) as (rc & ERC & _ & _ & _ & GD).
  specialize (GD Gs Un Om HG ltac:(lra) ltac:(lra)).
  assert (rc = mid_radii rs) as ->.
  { rewrite default_r_cyl_X in ERC. apply map_fin_inj in ERC. rewrite <- ERC, <- midpoints_spec by auto. unfold rcR, default_r_cyl. destruct rs as [|a [|b rs]]; cbn in H2; try lia. reflexivity. }
  assert (W : exists w gb gl, discr rs Gs Rr Un Om 1 true true true None = Ok w /\ w_gt w = map Fin (map (fun g => g * Un) gb) /\ len gb = len rs /\ w_gl w = Some (map Fin gl) /\ len gl = len rs /\
     forall j, (j < len rs)%nat -> nth j (sufs gb) 0 = momentum_induction (Ct_eff Gs (mid_radii rs) Un Om 1 j)).
  { destruct (swirl_wake rs Gs Rr Un Om _ GD Hp) as (w & EW & L1 & E1 & _ & L2).
    pose proof (good_cyl _ _ _ _ _ _ _ GD) as ER. destruct GD as [_ G1 G2 G3 G4 G5 G6 G7]. rewrite <- ER in G3, G6, G7.
    set (kl := klR Gs (cyl_of None rs Rr) Un Om 1). exists w, (gR (cte kl)), (gl_of Gs rs).
    assert (D : exists w', discr rs Gs Rr Un Om 1 true true true None = Ok w' /\ w_gt w' = map (fun g => nmul XN g (Fin Un)) (map Fin (gR (cte kl)))).
    { eexists. split; [apply (discr_ok rs Gs Rr Un Om 1 None) with (bS := true) (bT := true) (bH := true); assumption|]. cbn [w_gt].
      rewrite dloop_swirl by (eapply qs_nz; eauto). cbn [d_gs]. rewrite kl_qs by auto. reflexivity. }
    destruct D as (w' & E' & D1). assert (w' = w) by congruence. subst w'.
    assert (LK : len kl = len rs) by (unfold kl; rewrite klR_length; congruence).
    split; auto. split; [rewrite D1, !map_map; reflexivity|]. split; [rewrite gR_length, cte_length; auto|]. split; auto. split; auto.
    intros j Hj. rewrite sufs_gR. rewrite (nth_indep _ 0 (indR 0)) by (rewrite map_length, cte_length; lia). rewrite map_nth, <- momentum_indR. f_equal.
    unfold kl. rewrite cte_Ct_eff by (auto; congruence || lia). rewrite ER. reflexivity. }
  destruct W as (w & gb & gl & EW & W1 & W2 & W3 & W4 & W5).
  assert (EO : ndiv XN (nmul XN (Fin l) (Fin Un)) (Fin Rr) = Fin Om) by (xn; apply xdiv_fin; lra).
  assert (EW' : WakeVorticityFromGamma (N := XN) (map Fin rs) (map Fin Gs) (Fin Rr) (Fin Un) (Fin Om) = Ok w).
  { unfold WakeVorticityFromGamma. change (omega_fix (N := XN) (Fin Om)) with (Fin Om).
    replace (nlt XN (ndiv XN (nmul XN (Fin Om) (Fin Rr)) (Fin Un)) (nZ XN 20)) with true; [exact EW|]. xn. rewrite xdiv_fin by lra. symmetry. apply Rltb_true.
    unfold Om. replace (l * Un / Rr * Rr / Un) with l by (field; lra). lra. }
  unfold update_loading. rewrite (wf_R _ _ _ _ _ _ _ H), (wf_U0 _ _ _ _ _ _ _ H), norm_lift. fold Un.
  cbn [load_interp]. unfold mbind, mlift, massign. cbn [need bind]. rewrite EO, EW'.
  eexists _, gb, (Some gl). split; [reflexivity|]. cbn [t_gt t_gl t_Gr t_r t_chi t_ground t_model set_Ct set_r set_Lambda set_Gr set_gl set_gt option_map].
  rewrite W1, W3. split; auto. split; auto. split; auto. split; [intros x E; injection E as <-; auto|]. repeat split; auto.
Qed.
Lemma sufs_scale k : forall gb j, nth j (sufs (map (fun g => g * k) gb)) 0 = nth j (sufs gb) 0 * k.
Proof.
  assert (S : forall gb, lsum (map (fun g => g * k) gb) = lsum gb * k).
  { induction gb as [|g gb IH]; [cbn; ring|]. cbn [map]. change (lsum (g * k :: map (fun g => g * k) gb)) with (g * k + lsum (map (fun g => g * k) gb)). rewrite IH. change (lsum (g :: gb)) with (g + lsum gb). ring. }
  induction gb as [|g gb IH]; intros [|j]; try (cbn; ring).
  - cbn [map sufs nth]. change (lsum (g * k :: map (fun g => g * k) gb)) with (g * k + lsum (map (fun g => g * k) gb)). rewrite S. change (lsum (g :: gb)) with (g + lsum gb). field.
  - cbn [map sufs nth]. apply IH.
Qed.

(** ** C132 *)
(** At a point of the rotor plane between the stations j-1 and j the wind is slowed by a_j |U|, a_j being the induction of momentum theory for the effective
    thrust coefficient of the j-th annulus (C31's formula, with the solver's own radii); outside the last station it is not slowed at all *)
Theorem C132_axial_profile : forall minim t sh v hub U Rr yaw rs Gs l,
  built minim t sh v hub U Rr yaw -> 0 < Rr -> 0 < length3 U -> 0 < l < 20 ->
  (2 <= len rs)%nat -> len Gs = len rs -> increasing rs -> (forall x, In x rs -> 0 < x) ->
  exists t', update_loading minim (Some (map Fin rs : list XN)) None (Some (map Fin Gs : list XN)) (Some (Fin l : XN)) None None t = (t', Ok tt) /\
    forall o c (ps : list R3) i p, tang_only o -> model_of t o = "VC"%string -> ground_on t o = false ->
      skew_is t sh v U yaw c -> Rabs c <= 1 / 10000000 -> nth_error ps i = Some p ->
      let shaft := rotate v yaw sh in let free := if o_only_ind o then zero else U in
      let r := length3 (sub3 p hub) in
      inner (sub3 p hub) shaft = 0 -> (forall x, In x rs -> off_rim x r) ->
      exists us w, snd (compute_u t' o (map lift3 ps)) = Ok us /\ nth_error us i = Some (lift3 w) /\
        (forall j, (j < len rs)%nat -> (forall k, (k < j)%nat -> nth k rs 0 < r) -> r < nth j rs 0 ->
           inner w shaft = inner free shaft - momentum_induction (Ct_eff Gs (mid_radii rs) (length3 U) (l * length3 U / Rr) 1 j) * length3 U) /\
        ((forall x, In x rs -> x < r) -> inner w shaft = inner free shaft).
Proof.
  intros minim t sh v hub U Rr yaw rs Gs l HB hR hU Hl H2 HG HI Hp. pose proof (built_WF _ _ _ _ _ _ _ _ HB) as H.
  destruct (load_profile minim t sh v hub U Rr yaw rs Gs l H hR hU Hl H2 HG HI Hp) as (t' & gb & gl & EL & E1 & L1 & E2 & L2 & E3 & E4 & E5 & E6 & EA).
  exists t'. split; auto. intros o c ps i p HO HM HN SK Hc Hi shaft free r HP Hx.
  assert (HB' : built minim t' sh v hub U Rr yaw) by (replace t' with (fst (t', @Ok unit tt)) by reflexivity; rewrite <- EL; apply b_load; auto).
  pose proof (built_WF _ _ _ _ _ _ _ _ HB') as H'.
  destruct (tang_several t' sh v hub U Rr yaw c o ps i p (map (fun g => g * length3 U) gb) rs H' HO) as (us & w & EU & NU & IW); auto; try lia.
  { unfold model_of in *. rewrite E6. auto. } { unfold ground_on in *. rewrite E5. auto. } { unfold skew_is in *. rewrite E4. auto. }
  { exists gl. split; auto. } { rewrite map_length. auto. }
  exists us, w. split; auto. split; auto. cbv zeta in IW. fold shaft free r in IW. split.
  - intros j Hj Hb Ha. rewrite IW, (disks_in _ rs r j) by (try (rewrite map_length); auto). rewrite sufs_scale, EA by auto. ring.
  - intros Ho. rewrite IW, disks_out by auto. ring.
Qed.
Example C132_case : forall minim,
  built minim wt_sw (1,0,0) (0,0,1) (0,0,90) (wind (1,0,0) (0,0,1) 10 0 0) 50 0 /\ tang_only default_opts /\ ground_on wt_sw default_opts = false /\
  (forall x, In x [20; 40] -> off_rim x 30) /\ mid_radii [20; 40] = [30; 50] /\ (forall k, (k < 1)%nat -> nth k [20; 40] 0 < 30) /\ 30 < nth 1 [20; 40] 0 /\
  Ct_eff [300; 100] [30; 50] 10 (8 / 5) 1 1 = 100 * 1 * (8 / 5) / (PI * 10 ^ 2) * (1 + 100 * 1 * (8 / 5) / (PI * 10 ^ 2) / (4 * (8 / 5 * 50 / 10) ^ 2)) - 0.
Proof.
  intros minim. assert (HF : frame (1,0,0) (0,0,1)) by (repeat split; unfold unit3, perp, inner, px, py, pz; cbn [fst snd]; ring).
  split; [apply b_new; auto|]. split; [repeat split|]. split; [reflexivity|]. split.
  { intros x [<-|[<-|[]]]; unfold off_rim; [rewrite Rabs_right by lra|rewrite Rabs_left by lra]; lra. }
  split; [unfold mid_radii, mid_radius; cbn; f_equal; [lra|f_equal; lra]|]. split; [intros [|k] Hk; [cbn; lra|lia]|]. split; [cbn; lra|].
  unfold Ct_eff, k_, lam_, sum_over. cbn [nth len seq map fold_right Nat.sub]. reflexivity.
Qed.
