(** * C153: far from its wake a turbine acts as a point source: the wind recovers with the square of the distance *)
From Coquelicot Require Import Coquelicot.
From Coq Require Import ZArith List Bool Arith Lia String Reals Lra Psatz.
From Verif Require Import Num NumR NumX Spec SpecBS M_Elliptic M_Line M_Doublet M_Misc M_Cylinder M_Ring M_Skewed
  M_Solver M_Turbine M_Farm L_List L_Calc L_X L_Turbine L_State L_Farm L_Geom L_Angles L_TurbineX L_TurbineY L_Multi L_Built L_Ell L_Cyl L_Carlson
  P_Turbine P_Line P_Ring P_Doublet P_Skewed P_Cylinder P_Cylinder2 P_Cylinder3 P_Converge P_FarField P_Quad P_CodeConv P_FarOff P_Farm P_Grid P_Centre P_TurbineAxis.
Import ListNotations.
Local Notation len := List.length.
Local Open Scope R_scope.

(** ** Specification *)
(** velocity, at the distance vector [d], of a point source of strength -pi R^2 g (a source for g<0, the sign of a turbine that slows the wind) *)
Definition source (g Rr : R) (d : R3) : R3 := scal3 (- (g * Rr ^ 2) / (4 * length3 d ^ 3)) d.
(** beside the half line drawn downstream by the wake axis, at least 2e-8 m away, or on the axis upstream *)
Definition beside (shaft d : R3) : Prop :=
  let s := inner d shaft in let r := length3 (sub3 d (scal3 s shaft)) in 1 / 50000000 <= r \/ (r = 0 /\ s < - (1 / 100000000)).
(** in the rotor plane or at least 1e-8 m away from it *)
Definition beyond (shaft d : R3) : Prop := inner d shaft = 0 \/ 1 / 100000000 <= Rabs (inner d shaft).

(** ** In the coordinates of the rotor *)
Lemma special_len p : off_special p -> 0 < length3 p.
Proof.
  intros HS. rewrite <- Rsph_len. apply sqrt_lt_R0. unfold off_special in HS. cbv zeta in HS. fold (rho p) in HS.
  pose proof (Rsq_pos (rho p)). pose proof (Rsq_pos (pz p)).
  destruct HS as [[A _]|[[A _]|[_ B]]]; [assert (0 < rho p * rho p) by (apply Rmult_lt_0_compat; lra); lra..|].
  assert (0 < (- pz p) * (- pz p)) by (apply Rmult_lt_0_compat; lra). lra.
Qed.
Lemma far_source g Rr cut (pts : list R3) i p : 0 < Rr -> nth_error pts i = Some p -> cut * Rr < length3 p -> off_special p ->
  exists us, vc_tang_u_doublet (N := XN) (Fin g) (Fin Rr) (Fin cut) (map xv pts) = Ok us /\ nth_error us i = Some (xv (source g Rr p)).
Proof.
  intros hR Hi Hc HS. destruct (C58_switch_by_distance g Rr cut pts hR) as (us & E & L & FF & _). destruct (FF i p Hi Hc) as (v & Ev & EL).
  destruct (azim_polar p) as [P1 P2]. assert (EP : p = (rho p * cos (azim p), rho p * sin (azim p), pz p)) by (destruct p as [[x y] z]; unfold px, py, pz in *; cbn [fst snd] in *; congruence).
  assert (ER : sqrt (px p ^ 2 + py p ^ 2) = rho p) by (unfold rho; f_equal; ring). rewrite ER in EL.
  destruct (C64_polar_agrees_with_cartesian (g * Rr ^ 2 * PI) (rho p) (pz p) (azim p) false) as (ur & uz & E1 & E2). { exact HS. }
  rewrite <- EP in E2. rewrite E1 in EL. apply Ok_inj in EL. assert (EV : v = (Fin ur, Fin uz)) by (pose proof (f_equal (fun l => hd (NaN, NaN) l) EL) as Z; cbn in Z; symmetry; exact Z).
  eexists. split.
  - unfold vc_tang_u_doublet, vc_tang_u_doublet_gen. unfold vc_tang_doublet_polar in E. rewrite E. cbn [bind]. reflexivity.
  - rewrite map2_nth_error. rewrite nth_error_map, Hi. cbn [option_map]. nT. rewrite Ev, EV. f_equal. change (Fin ur, Fin uz) with (F2 (ur, uz)). rewrite cart2_X. cbn [fst snd]. rewrite <- E2.
    rewrite (C64_straight_is_point_sink _ _ (special_near p HS)). f_equal. f_equal. unfold source. f_equal. pose proof PI_RGT_0. pose proof (special_len p HS).
    field. split; lra.
Qed.

(** ** The turbine *)
Lemma loc_length sh v yaw hub p : frame sh v -> length3 (loc sh v yaw hub p) = length3 (sub3 p hub).
Proof. intros HF. unfold length3. f_equal. apply c2g_tr_inner; auto. Qed.
Lemma loc_special sh v yaw hub p : frame sh v -> beside (rotate v yaw sh) (sub3 p hub) -> beyond (rotate v yaw sh) (sub3 p hub) -> off_special (loc sh v yaw hub p).
Proof.
  intros HF HB HY. unfold off_special. cbv zeta. destruct (local_comp sh v yaw (sub3 p hub) HF) as (_ & _ & Q3). fold (loc sh v yaw hub p) in Q3.
  pose proof (local_radial sh v yaw (sub3 p hub) HF) as LR. cbv zeta in LR. fold (loc sh v yaw hub p) in LR. rewrite LR, Q3.
  unfold beside in HB. cbv zeta in HB. unfold beyond in HY. unfold length3 in HB. tauto.
Qed.
Lemma mv_scal3 (M : R3 * R3 * R3) k a : mv M (scal3 k a) = scal3 k (mv M a).
Proof. destruct M as [[[[a0 a1] a2] [[b0 b1] b2]] [[c0 c1] c2]], a as [[x y] z]. unfold mv, scal3, px, py, pz; cbn. t3; ring. Qed.
Lemma source_back sh v yaw hub g Rr p : frame sh v -> mv (c2g sh v yaw) (source g Rr (loc sh v yaw hub p)) = source g Rr (sub3 p hub).
Proof. intros HF. unfold source. rewrite loc_length by auto. rewrite mv_scal3. unfold loc. rewrite c2g_tr_r by auto. reflexivity. Qed.
Lemma source_off g Rr d : g = 0 -> source g Rr d = zero.
Proof. intros ->. unfold source. rewrite Rmult_0_l, Ropp_0. unfold Rdiv. rewrite Rmult_0_l. destruct d as [[x y] z]. unfold scal3, zero, px, py, pz; cbn [fst snd]. t3; ring. Qed.

(** one cylinder, no skew, no ground, any model *)
Lemma tang_any t sh v hub U Rr yaw o g c (ps : list R3) i p (a : R3) (w : list xpt) :
  WF t sh v hub U Rr yaw -> tang_only o -> t_gt t = Some [Fin g : XN] ->
  skew_is t sh v U yaw c -> ground_on t o = false -> nth_error ps i = Some p ->
  cu_tang1 t o (model_of t o) (Fin c) (Fin g) (map lift3 (map (loc sh v yaw hub) ps)) = Ok w ->
  nth_error w i = Some (xv a) -> (g = 0 -> a = zero) ->
  exists us, snd (compute_u t o (map lift3 ps)) = Ok us /\
    nth_error us i = Some (lift3 (add3 (mv (c2g sh v yaw) a) (if o_only_ind o then zero else U))).
Proof.
  intros H HO HG HS HN Hi EW EA HZ.
  assert (L : (i < len (map lift3 ps))%nat) by (rewrite map_length; apply nth_error_Some; rewrite Hi; discriminate).
  exists (finish t o (map lift3 ps) (fsum (fzero (map lift3 ps)) (if Reqb g 0 then [] else [w]))). split.
  - apply (single_no_ground _ _ _ _ _ _ _ _ _ _ _ H HO HG HN). rewrite (skew_chi _ _ _ _ _ _ _ _ H HS). exact EW.
  - apply (finish_at _ _ _ _ _ _ _ _ _ _ _ _ H); [apply HO|]. apply fsum1_at; auto.
Qed.
(** C153.  The fast model (VCFF): from [cut] radii on, the wind is the free wind plus a point source at the hub,
    (U0 - u) = - g R^2/4 d/|d|^3, the vector d from the hub to the point. *)
Theorem C153_far_wind : forall minim t sh v hub U Rr yaw o g c cut (ps : list R3) i p,
  built minim t sh v hub U Rr yaw -> 0 < Rr -> tang_only o -> model_of t o = "VCFF"%string -> t_gt t = Some [Fin g : XN] ->
  skew_is t sh v U yaw c -> Rabs c <= 1 / 10000000 -> ground_on t o = false -> o_far o = Fin cut ->
  nth_error ps i = Some p ->
  let d := sub3 p hub in let shaft := rotate v yaw sh in let free := if o_only_ind o then zero else U in
  cut * Rr < length3 d -> beside shaft d -> beyond shaft d ->
  exists us, snd (compute_u t o (map lift3 ps)) = Ok us /\ nth_error us i = Some (lift3 (add3 free (source g Rr d))).
Proof.
  intros minim t sh v hub U Rr yaw o g c cut ps i p HB hR HO HM HG HS Hc HN HF Hi d shaft free HD B1 B2.
  pose proof (built_WF _ _ _ _ _ _ _ _ HB) as H. pose proof (wf_frame _ _ _ _ _ _ _ H) as FR.
  assert (Hq : nth_error (map (loc sh v yaw hub) ps) i = Some (loc sh v yaw hub p)) by (rewrite nth_error_map, Hi; reflexivity).
  destruct (far_source g Rr cut _ i _ hR Hq) as (w & EW & EI); [rewrite loc_length by auto; exact HD|apply loc_special; auto|].
  destruct (tang_any t sh v hub U Rr yaw o g c ps i p (source g Rr (loc sh v yaw hub p)) w H HO HG HS HN Hi) as (us & E1 & E2); auto.
  - unfold cu_tang1. rewrite HM. cbn [String.eqb Ascii.eqb Bool.eqb]. rewrite skewed_fin. replace (Rltb _ _) with false by (symmetry; apply Rltb_false; lra).
    rewrite (wf_R _ _ _ _ _ _ _ H), HF. exact EW.
  - intros G. apply source_off, G.
  - exists us. split; auto. rewrite E2, source_back, add3_comm by auto. reflexivity.
Qed.
(** With the ground: the source at the hub and an equal one at its image under the ground (vertical axis [v], ground through the origin) *)
Lemma loc_image sh v yaw hub k p : frame sh v -> loc sh v yaw hub (add3 p (scal3 k v)) = (px (loc sh v yaw hub p), py (loc sh v yaw hub p) + k, pz (loc sh v yaw hub p)).
Proof.
  intros HF. assert (E : sub3 (add3 p (scal3 k v)) hub = add3 (sub3 p hub) (scal3 k v)) by (destruct p as [[p0 p1] p2], hub as [[h0 h1] h2], v as [[v0 v1] v2]; unfold sub3, add3, scal3, px, py, pz; cbn [fst snd]; t3; ring).
  unfold loc. rewrite E.
  assert (EY : mv (c2g sh v yaw) (0, k, 0) = scal3 k v).
  { replace ((0, k, 0) : R3) with (scal3 k (0, 1, 0)) by (unfold scal3, px, py, pz; cbn [fst snd]; apply tri; ring). rewrite mv_scal3. f_equal.
    rewrite c2g_mv; unfold px, py, pz; cbn [fst snd]. replace (add3 (add3 (scal3 0 (vprod v sh)) (scal3 1 v)) (scal3 0 sh)) with v by (apply eq3; unf; ring). apply rotate_axis; apply HF. }
  rewrite <- EY. assert (ML : forall (M : R3 * R3 * R3) a b, mv M (add3 a b) = add3 (mv M a) (mv M b)).
  { intros [[[[a0 a1] a2] [[b0 b1] b2]] [[c0 c1] c2]] [[x y] z] [[x' y'] z']. unfold mv, add3, px, py, pz; cbn. t3; ring. }
  rewrite ML, c2g_tr_l by auto. destruct (mv _ (sub3 p hub)) as [[q0 q1] q2]. unfold add3, px, py, pz; cbn [fst snd]. apply tri; ring.
Qed.
Theorem C153_ground : forall minim t sh v hub U Rr yaw o g c cut (ps : list R3) i p,
  built minim t sh v hub U Rr yaw -> 0 < Rr -> tang_only o -> model_of t o = "VCFF"%string -> t_gt t = Some [Fin g : XN] ->
  skew_is t sh v U yaw c -> Rabs c <= 1 / 10000000 -> ground_on t o = true -> o_far o = Fin cut ->
  nth_error ps i = Some p ->
  let d := sub3 p hub in let d' := sub3 p (sub3 hub (scal3 (2 * inner hub v) v)) in
  let shaft := rotate v yaw sh in let free := if o_only_ind o then zero else U in
  cut * Rr < length3 d -> beside shaft d -> beyond shaft d -> cut * Rr < length3 d' -> beside shaft d' -> beyond shaft d' ->
  exists us, snd (compute_u t o (map lift3 ps)) = Ok us /\ nth_error us i = Some (lift3 (add3 free (add3 (source g Rr d) (source g Rr d')))).
Proof.
  intros minim t sh v hub U Rr yaw o g c cut ps i p HB hR HO HM HG HS Hc HN HF Hi d d' shaft free HD B1 B2 HD' B1' B2'.
  pose proof (built_WF _ _ _ _ _ _ _ _ HB) as H. pose proof (wf_frame _ _ _ _ _ _ _ H) as FR.
  set (k := 2 * inner hub v) in *. set (img := fun p : R3 => add3 p (scal3 k v)).
  assert (ED : d' = sub3 (img p) hub) by (unfold d', img; clear; generalize (scal3 k v); intros a; destruct p as [[p0 p1] p2], hub as [[h0 h1] h2], a as [[a0 a1] a2]; unfold sub3, add3, px, py, pz; cbn [fst snd]; t3; ring).
  rewrite ED in *. clear d' ED.
  assert (Hq : nth_error (map (loc sh v yaw hub) ps) i = Some (loc sh v yaw hub p)) by (rewrite nth_error_map, Hi; reflexivity).
  assert (Hq' : nth_error (map (loc sh v yaw hub) (map img ps)) i = Some (loc sh v yaw hub (img p))) by (rewrite !nth_error_map, Hi; reflexivity).
  destruct (far_source g Rr cut _ i _ hR Hq) as (w & EW & EI); [rewrite loc_length by auto; exact HD|apply loc_special; auto|].
  destruct (far_source g Rr cut _ i _ hR Hq') as (w' & EW' & EI'); [rewrite loc_length by auto; exact HD'|apply loc_special; auto|].
  assert (EM : map (fun p => (px p, py p + k, pz p)) (map (loc sh v yaw hub) ps) = map (loc sh v yaw hub) (map img ps)).
  { rewrite !map_map. apply map_ext. intros x. unfold img. rewrite loc_image by auto. reflexivity. }
  assert (L : (i < len (map lift3 ps))%nat) by (rewrite map_length; apply nth_error_Some; rewrite Hi; discriminate).
  assert (CU : forall X, cu_tang1 t o (model_of t o) (chi_now t) (Fin g) X = vc_tang_u_doublet (N := XN) (Fin g) (Fin Rr) (Fin cut) X).
  { intros X. rewrite (skew_chi _ _ _ _ _ _ _ _ H HS). unfold cu_tang1. rewrite HM. cbn [String.eqb Ascii.eqb Bool.eqb]. rewrite skewed_fin. replace (Rltb _ _) with false by (symmetry; apply Rltb_false; lra).
    rewrite (wf_R _ _ _ _ _ _ _ H), HF. reflexivity. }
  assert (ZG : g = 0 -> add3 (source g Rr (loc sh v yaw hub p)) (source g Rr (loc sh v yaw hub (img p))) = zero).
  { intros G. rewrite !(source_off g Rr) by auto. unfold add3, zero, px, py, pz; cbn [fst snd]. apply tri; ring. }
  eexists. split.
  - apply (single_ground _ _ _ _ _ _ _ _ _ _ w w' H HO HG HN); fold k; rewrite ?EM, CU; assumption.
  - assert (FS := fsum2_at (map lift3 ps) w w' g i _ _ EI EI' L ZG).
    rewrite (finish_at _ _ _ _ _ _ _ _ _ _ _ _ H (proj2 (proj2 (proj2 HO))) FS).
    do 2 f_equal. rewrite add3_comm. f_equal.
    assert (ML : forall (M : R3 * R3 * R3) a b, mv M (add3 a b) = add3 (mv M a) (mv M b)).
    { intros [[[[a0 a1] a2] [[b0 b1] b2]] [[c0 c1] c2]] [[x y] z] [[x' y'] z']. unfold mv, add3, px, py, pz; cbn. t3; ring. }
    rewrite ML, !source_back by auto. reflexivity.
Qed.
(** the doublet model (VD) is that point source at every point, however near, outside a thread of 1e-8 m along the wake axis *)
Theorem C153_doublet_model : forall minim t sh v hub U Rr yaw o g c (ps : list R3) i p,
  built minim t sh v hub U Rr yaw -> tang_only o -> model_of t o = "VD"%string -> t_gt t = Some [Fin g : XN] ->
  skew_is t sh v U yaw c -> Rabs c <= 1 / 10000000 -> ground_on t o = false -> nth_error ps i = Some p ->
  let d := sub3 p hub in let shaft := rotate v yaw sh in let free := if o_only_ind o then zero else U in
  inner d shaft < 0 \/ 1 / 50000000 <= length3 (sub3 d (scal3 (inner d shaft) shaft)) ->
  exists us, snd (compute_u t o (map lift3 ps)) = Ok us /\ nth_error us i = Some (lift3 (add3 free (source g Rr d))).
Proof.
  intros minim t sh v hub U Rr yaw o g c ps i p HB HO HM HG HS Hc HN Hi d shaft free HD.
  pose proof (built_WF _ _ _ _ _ _ _ _ HB) as H. pose proof (wf_frame _ _ _ _ _ _ _ H) as FR.
  set (q := loc sh v yaw hub p). destruct (local_comp sh v yaw (sub3 p hub) FR) as (_ & _ & Q3). fold (loc sh v yaw hub p) in Q3. fold q in Q3.
  pose proof (local_radial sh v yaw (sub3 p hub) FR) as LR. cbv zeta in LR. fold (loc sh v yaw hub p) in LR. fold q in LR.
  assert (NL : ~ near_line 0 None q).
  { intros (Y & X & Z & _). replace (px q - 0 * pz q) with (px q) in X by ring. destruct HD as [HD|HD]; [rewrite Q3 in Z; unfold d, shaft in HD; lra|].
    unfold d, shaft, length3 in HD. rewrite <- LR in HD. apply Rabs_def2 in X. apply Rabs_def2 in Y.
    assert (K : px q * px q + py q * py q < 1/50000000 * (1/50000000)) by nra. assert (K2 := conj (Rplus_le_le_0_compat _ _ (Rle_0_sqr (px q)) (Rle_0_sqr (py q))) K). apply sqrt_lt_1_alt in K2. clear K. rename K2 into K. rewrite sqrt_square in K by lra. lra. }
  assert (LP : length3 q <> 0).
  { intros Z. assert (Z2 : px q * px q + py q * py q + pz q * pz q = 0) by (unfold length3 in Z; apply sqrt_eq_0 in Z; [exact Z|unfold inner; pose proof (Rsq_pos (px q)); pose proof (Rsq_pos (py q)); pose proof (Rsq_pos (pz q)); lra]).
    assert (px q = 0) by nra. assert (py q = 0) by nra. assert (pz q = 0) by nra. apply NL. unfold near_line. rewrite H0, H1, H2. replace (0 - 0 * 0) with 0 by ring. rewrite Rabs_R0. repeat split; lra. }
  pose proof PI_RGT_0 as HP.
  destruct (tang_any t sh v hub U Rr yaw o g c ps i p (source g Rr q) (map (doublet_line_u (N := XN) (Fin (g * (Rr * Rr) * PI)) (Fin 0) PInf) (map lift3 (map (loc sh v yaw hub) ps))) H HO HG HS HN Hi) as (us & E1 & E2).
  - unfold cu_tang1. rewrite HM. cbn [String.eqb Ascii.eqb Bool.eqb]. rewrite skewed_fin. replace (Rltb _ _) with false by (symmetry; apply Rltb_false; lra).
    rewrite (wf_R _ _ _ _ _ _ _ H). reflexivity.
  - rewrite !nth_error_map, Hi. cbn [option_map]. fold q. f_equal. change (lift3 q) with (xv q). rewrite (C64_straight_is_point_sink _ _ NL). unfold source. do 2 f_equal. field. split; lra.
  - intros G. apply source_off, G.
  - exists us. split; auto. unfold q in E2. rewrite E2, source_back, add3_comm by auto. reflexivity.
Qed.
(** The vortex cylinder itself (model VC with an exact integral of the third kind), at a point at least [dl] >= 4 R away from the wake
    axis: the same point source, up to 41 pi |g| (R/dl)^4 in each component. *)
Theorem C153_cylinder_far : forall PIb, third PIb exact3 -> forall g Rr dl (pts : list R3) i p, 0 < Rr -> 4 * Rr <= dl -> 1 / 50000000 <= dl ->
  nth_error pts i = Some p -> off_axis 0 dl p -> px p = 0 /\ py p = 0 \/ 1 / 10000000 * Rr <= sqrt (px p * px p + py p * py p) ->
  exists u, nth_error (vc_tang_u_gen (N := XN) PIb (Fin g) (Fin Rr) (Fin 0) (map xv pts)) i = Some (xv u) /\
    each3 (fun c => Rabs (c u - c (source g Rr p)) <= 41 * PI * Rabs g * (Rr / dl) ^ 4).
Proof.
  intros PIb HT g Rr dl pts i p hR hd hd2 Hi HA HR. pose proof PI_RGT_0 as HP.
  assert (E0 : forall s, sub3 p (0 * s, 0, s) = (px p, py p, pz p - s)) by (intros s; destruct p as [[x y] z]; unfold sub3, px, py, pz; cbn [fst snd]; apply tri; ring).
  assert (NR : ~ rim_zone Rr (rho p) (pz p)).
  { intros (Z1 & Z2). assert (A1 : Rabs (rho p - Rr) < 1/100000000 * Rr) by (apply Rmult_lt_reg_r with (/ Rr); [apply Rinv_0_lt_compat; lra|]; replace (1/100000000 * Rr * / Rr) with (1/100000000) by (field; lra); exact Z1).
    assert (A2 : Rabs (pz p) < 1/100000000 * Rr). { unfold Rdiv in Z2. rewrite Rabs_mult, (Rabs_right (/ Rr)) in Z2 by (apply Rle_ge, Rlt_le, Rinv_0_lt_compat; lra). apply Rmult_lt_reg_r with (/ Rr); [apply Rinv_0_lt_compat; lra|]. replace (1/100000000 * Rr * / Rr) with (1/100000000) by (field; lra). lra. }
    apply Rabs_def2 in A1. apply Rabs_def2 in A2. specialize (HA 0 (Rle_refl 0)). rewrite E0 in HA. replace (px p, py p, pz p - 0) with p in HA by (destruct p as [[x y] z]; unfold px, py, pz; cbn [fst snd]; apply tri; ring).
    rewrite <- (Rsph_len p) in HA. assert (K : rho p * rho p + pz p * pz p < dl * dl) by nra.
    assert (K2 := conj (Rplus_le_le_0_compat _ _ (Rle_0_sqr (rho p)) (Rle_0_sqr (pz p))) K). apply sqrt_lt_1_alt in K2. rewrite sqrt_square in K2 by lra. lra. }
  destruct (C54_is_biot_savart PIb HT g Rr pts i p hR Hi HR (off_axis_sheet 0 Rr dl p hR hd HA) NR) as (u & E & SU).
  exists u. split; [exact E|].
  assert (NL : ~ near_line 0 None p).
  { intros (Y & X & Z & _). replace (px p - 0 * pz p) with (px p) in X by ring. apply Rabs_def2 in X. apply Rabs_def2 in Y. specialize (HA (pz p) Z). rewrite E0 in HA. 
    unfold length3, inner in HA. cbn [px py pz fst snd] in HA. replace (pz p - pz p) with 0 in HA by ring. fold (px p) (py p) in HA.
    assert (K : px p * px p + py p * py p + 0 * 0 < dl * dl) by nra.
    assert (K1 : 0 <= px p * px p + py p * py p + 0 * 0) by (pose proof (Rsq_pos (px p)); pose proof (Rsq_pos (py p)); lra).
    pose proof (sqrt_lt_1_alt _ _ (conj K1 K)) as K2. rewrite sqrt_square in K2 by lra. lra. }
  assert (LP : length3 p <> 0).
  { intros Z. assert (Z2 : px p * px p + py p * py p + pz p * pz p = 0) by (unfold length3 in Z; apply sqrt_eq_0 in Z; [exact Z|unfold inner; pose proof (Rsq_pos (px p)); pose proof (Rsq_pos (py p)); pose proof (Rsq_pos (pz p)); lra]).
    assert (Q0 : px p = 0) by nra. assert (Q1 : py p = 0) by nra. assert (Q2 : pz p = 0) by nra. apply NL. unfold near_line. rewrite Q0, Q1, Q2. replace (0 - 0 * 0) with 0 by ring. rewrite Rabs_R0. repeat split; lra. }
  destruct (C64_line_is_integral_of_doublets (g * Rr ^ 2 * PI) 0 p NL) as (uD & E3 & I).
  rewrite (C64_straight_is_point_sink _ _ NL) in E3.
  assert (ED : uD = source g Rr p).
  { assert (EX : forall a b : R3, xv a = xv b -> a = b) by (intros [[a0 a1] a2] [[b0 b1] b2] EE; cbv [xv px py pz fst snd] in EE; inversion EE; reflexivity).
    symmetry. apply EX. rewrite <- E3. unfold source. do 2 f_equal. field. split; lra. }
  subst uD. apply (sheet_doublet g Rr 0 p dl u _ hR hd HA SU). replace (g * sqrt (1 + 0 ^ 2) * PI * Rr ^ 2) with (g * Rr ^ 2 * PI); [exact I|]. rewrite pow_i by lia. rewrite Rplus_0_r, sqrt_1. ring.
Qed.
(** What a point source means: it falls with the square of the distance, points away from (g<0) or to the hub, and vanishes far away *)
Theorem C153_inverse_square : forall g Rr d, d <> zero ->
  length3 (source g Rr d) = Rabs g * Rr ^ 2 / (4 * length3 d ^ 2) /\ inner (source g Rr d) d = - (g * Rr ^ 2) / (4 * length3 d) /\
  (forall k, 0 < k -> source g Rr (scal3 k d) = scal3 (/ k ^ 2) (source g Rr d)) /\
  (forall eps, 0 < eps -> forall e, Rabs g * Rr ^ 2 / (4 * eps) < length3 e ^ 2 -> length3 (source g Rr e) < eps).
Proof.
  assert (LL : forall a : R3, length3 a * length3 a = inner a a) by (intros a; apply sqrt_sqrt; unfold inner; pose proof (Rsq_pos (px a)); pose proof (Rsq_pos (py a)); pose proof (Rsq_pos (pz a)); lra).
  assert (LS : forall k a, length3 (scal3 k a) = Rabs k * length3 a).
  { intros k a. unfold length3. replace (inner (scal3 k a) (scal3 k a)) with (k * k * inner a a) by (unfold inner, scal3; cbn [px py pz fst snd]; ring).
    rewrite sqrt_mult_alt by apply Rsq_pos. f_equal. apply sqrt_Rsqr_abs. }
  assert (LQ : forall a : R3, 0 <= length3 a) by (intros; apply sqrt_pos).
  assert (LE : forall g Rr e, 0 < length3 e -> length3 (source g Rr e) = Rabs g * Rr ^ 2 / (4 * length3 e ^ 2)).
  { intros g Rr e He. unfold source. rewrite LS. unfold Rdiv. rewrite Rabs_mult, Rabs_Ropp, Rabs_mult, (Rabs_right (Rr ^ 2)) by (pose proof (pow2_ge_0 Rr); lra).
    pose proof (pow_lt _ 3 He). rewrite (Rabs_right (/ _)) by (apply Rle_ge, Rlt_le, Rinv_0_lt_compat; lra). field. lra. }
  intros g Rr d Hd.
  assert (HL : 0 < length3 d).
  { destruct (LQ d) as [A|A]; auto. exfalso. apply Hd. pose proof (LL d) as Q. rewrite <- A in Q. unfold inner in Q. destruct d as [[x y] z]. unfold px, py, pz, zero in *; cbn [fst snd] in *.
    assert (x = 0) by nra. assert (y = 0) by nra. assert (z = 0) by nra. subst. reflexivity. }
  split; [apply LE, HL|]. split; [|split].
  - unfold source. transitivity (- (g * Rr ^ 2) / (4 * length3 d ^ 3) * inner d d); [unfold inner, scal3; cbn [px py pz fst snd]; ring|]. rewrite <- LL. field. lra.
  - intros k Hk. unfold source. rewrite LS, (Rabs_right k) by lra. destruct d as [[x y] z]. unfold scal3, px, py, pz; cbn [fst snd]. t3; field; split; lra.
  - intros eps He e Hq. assert (0 <= Rabs g * Rr ^ 2) by (apply Rmult_le_pos; [apply Rabs_pos|apply pow2_ge_0]).
    assert (0 <= Rabs g * Rr ^ 2 / (4 * eps)) by (apply Rmult_le_pos; [lra|apply Rlt_le, Rinv_0_lt_compat; lra]).
    assert (HE : 0 < length3 e) by (destruct (LQ e) as [A|A]; auto; rewrite <- A in Hq; lra).
    rewrite LE by auto. pose proof (pow_lt _ 2 HE).
    apply (Rmult_lt_reg_r (4 * length3 e ^ 2)); [lra|]. replace (Rabs g * Rr ^ 2 / (4 * length3 e ^ 2) * (4 * length3 e ^ 2)) with (Rabs g * Rr ^ 2 / (4 * eps) * (4 * eps)) by (field; lra).
    nra.
Qed.
(** A farm of such turbines (VCFF and VD may be mixed), far from all their wakes: the free wind plus the sources *)
Definition far_case (o : opts XN) (p : R3) (t : turbine XN) (hub shaft : R3) (g Rr : R) : Prop :=
  exists minim sh v U yaw c, built minim t sh v hub U Rr yaw /\ 0 < Rr /\ t_gt t = Some [Fin g : XN] /\
    skew_is t sh v U yaw c /\ Rabs c <= 1 / 10000000 /\ ground_on t o = false /\ shaft = rotate v yaw sh /\ beside shaft (sub3 p hub) /\
    (model_of t o = "VD"%string \/
     model_of t o = "VCFF"%string /\ exists cut, o_far o = Fin cut /\ cut * Rr < length3 (sub3 p hub) /\ beyond shaft (sub3 p hub)).
Definition far_turbine (o : opts XN) (p : R3) (t : turbine XN) (s : R3) : Prop :=
  exists hub shaft g Rr, far_case o p t hub shaft g Rr /\ s = source g Rr (sub3 p hub).
Theorem C153_farm : forall (h : heap XN) (f : farm) (ts : list (turbine XN)) (o : opts XN) (U0 : R3) (p : R3) (ss : list R3),
  members h f ts -> tang_only o -> Forall2 (far_turbine o p) ts ss ->
  snd (velocity_field h f o (Some (lift3 U0)) [lift3 p]) = Ok [lift3 (add3 (fold_left add3 ss zero) U0)].
Proof.
  intros h f ts o U0 p ss HM HO HF. 
  assert (HU : Forall2 (fun t u => snd (compute_u t (with_only_ind true o) [lift3 p]) = Ok u) ts (map (fun s => [lift3 s]) ss)).
  { clear HM. induction HF as [|t s ts ss Ht HF IH]; cbn [map]; constructor; auto. clear IH HF.
    destruct Ht as (hub & shaft & g & Rr & (minim & sh & v & U & yaw & c & HB & hR & HG & HS & Hc & HN & ES & B1 & HM) & ->). subst shaft.
    assert (Q : exists us, snd (compute_u t (with_only_ind true o) (map lift3 [p])) = Ok us /\ nth_error us 0 = Some (lift3 (add3 (if o_only_ind (with_only_ind true o) then zero else U) (source g Rr (sub3 p hub))))).
    { destruct HM as [Mo|(Mo & cut & HC & HD & B2)].
      - apply (C153_doublet_model minim t sh v hub U Rr yaw (with_only_ind true o) g c [p] 0%nat p HB HO Mo HG HS Hc HN eq_refl). unfold beside in B1. cbv zeta in B1. lra.
      - exact (C153_far_wind minim t sh v hub U Rr yaw (with_only_ind true o) g c cut [p] 0%nat p HB hR HO Mo HG HS Hc HN HC eq_refl HD B1 B2). }
    destruct Q as (us & E1 & E2).
    cbn [map] in E1. pose proof (compute_u_length _ _ _ _ E1) as L. destruct us as [|w [|? ?]]; try discriminate L. cbn [nth_error] in E2. rewrite E1. apply f_equal. apply (f_equal (fun x => [x])).
    cbn [with_only_ind o_only_ind] in E2. rewrite add3_z_l in E2. congruence. }
  destruct (C01_farm_superposition XN h f ts o (Some (lift3 U0)) [lift3 p] HM) as [A _]. destruct (A _ HU) as (v & E & L & K).
  destruct v as [|w [|? ?]]; try discriminate L. specialize (K 0%nat ltac:(cbn; lia)). cbn [nth] in K. rewrite E, K. do 2 f_equal.
  assert (T : forall a, fold_left (fun s u => vadd (N := XN) s (nth 0 u vzero)) (map (fun s => [lift3 s]) ss) (lift3 a) = lift3 (fold_left add3 ss a)).
  { clear. induction ss as [|s ss IH]; intros a; cbn [map fold_left nth]; auto. rewrite <- IH. f_equal. }
  unfold total_at. rewrite (T zero : fold_left _ _ vzero = _). reflexivity.
Qed.
(** Turbines sharing the direction of their shafts, all slowing the wind (g<0): upstream of all of them the wind is slowed,
    downstream of all of them (outside the wakes) it is sped up, and level with them it keeps its component along the shafts *)
Theorem C153_blockage : forall (h : heap XN) (f : farm) (ts : list (turbine XN)) (o : opts XN) (U0 p e : R3),
  members h f ts -> tang_only o -> ts <> [] ->
  let at_side (side : R -> Prop) := Forall (fun t => exists hub g Rr, far_case o p t hub e g Rr /\ g < 0 /\ side (inner (sub3 p hub) e)) ts in
  let wind_becomes (P : R -> R -> Prop) := exists w : R3, snd (velocity_field h f o (Some (lift3 U0)) [lift3 p]) = Ok [lift3 w] /\ P (inner w e) (inner U0 e) in
  (at_side (fun x => x < 0) -> wind_becomes Rlt) /\ (at_side (fun x => 0 < x) -> wind_becomes Rgt) /\ (at_side (fun x => x = 0) -> wind_becomes eq).
Proof.
  intros h f ts o U0 p e HM HO HN at_side wind_becomes.
  assert (IA : forall a b : R3, inner (add3 a b) e = inner a e + inner b e) by (intros; unfold inner, add3; cbn [px py pz fst snd]; ring).
  assert (IZ : inner zero e = 0) by (unfold inner, zero; cbn [px py pz fst snd]; ring).
  assert (IS : forall (g Rr : R) (d : R3), g < 0 -> 0 < Rr -> 0 < length3 d -> exists k, 0 < k /\ inner (source g Rr d) e = k * inner d e).
  { intros g Rr d hg hR hd. exists (- (g * Rr ^ 2) / (4 * length3 d ^ 3)). split; [|unfold source; unfold inner, scal3; cbn [px py pz fst snd]; ring].
    pose proof (pow_lt _ 3 hd). pose proof (pow_lt _ 2 hR). apply Rdiv_lt_0_compat; [|lra]. replace (- (g * Rr ^ 2)) with (- g * Rr ^ 2) by ring. apply Rmult_lt_0_compat; lra. }
  assert (SUM : forall side : R -> Prop, at_side side -> exists ss, Forall2 (far_turbine o p) ts ss /\ Forall (fun s => exists k x, 0 < k /\ side x /\ inner s e = k * x) ss).
  { intros side HS. unfold at_side in HS. clear HM HN. induction HS as [|t ts (hub & g & Rr & HC & hg & hs) HS IH]; [exists []; split; constructor|].
    destruct IH as (ss & I1 & I2). exists (source g Rr (sub3 p hub) :: ss). split; constructor; auto.
    - exists hub, e, g, Rr. auto.
    - destruct HC as (minim & sh & v & U & yaw & c & HB & hR & _ & _ & _ & _ & ES & B1 & _).
      assert (hd : 0 < length3 (sub3 p hub)).
      { destruct (Rle_lt_or_eq_dec 0 (length3 (sub3 p hub)) (sqrt_pos _)) as [A|A]; [exact A|exfalso]. set (d := sub3 p hub) in *.
        assert (Z : inner d d = 0) by (symmetry in A; unfold length3 in A; apply sqrt_eq_0 in A; [exact A|unfold inner; pose proof (Rsq_pos (px d)); pose proof (Rsq_pos (py d)); pose proof (Rsq_pos (pz d)); lra]).
        assert (Zd : d = zero). { unfold inner in Z. destruct d as [[x y] z]. unfold px, py, pz, zero in *; cbn [fst snd] in *. assert (x = 0) by nra. assert (y = 0) by nra. assert (z = 0) by nra. subst. reflexivity. }
        rewrite Zd in B1. unfold beside in B1. cbv zeta in B1. assert (E1 : inner zero e = 0) by exact IZ. rewrite E1 in B1.
        replace (sub3 zero (scal3 0 e)) with zero in B1 by (unfold sub3, scal3, zero, px, py, pz; cbn [fst snd]; apply tri; ring).
        assert (L0 : length3 zero = 0) by (unfold length3; rewrite <- sqrt_0; f_equal; unfold inner, zero; cbn [px py pz fst snd]; ring). rewrite L0 in B1. lra. }
      destruct (IS g Rr (sub3 p hub) hg hR hd) as (k & K1 & K2). exists k, (inner (sub3 p hub) e). auto. }
  assert (RES : forall side : R -> Prop, at_side side -> exists ss w, snd (velocity_field h f o (Some (lift3 U0)) [lift3 p]) = Ok [lift3 w] /\ ss <> [] /\
     Forall (fun s => exists k x, 0 < k /\ side x /\ inner s e = k * x) ss /\ inner w e = inner U0 e + inner (fold_left add3 ss zero) e).
  { intros side HS. destruct (SUM side HS) as (ss & S1 & S2). exists ss, (add3 (fold_left add3 ss zero) U0). split; [apply (C153_farm h f ts o U0 p ss HM HO S1)|].
    split; [intros ->; inversion S1; subst; contradiction|]. split; [exact S2|]. rewrite IA. ring. }
  assert (FS : forall ss a, inner (fold_left add3 ss a) e = inner a e + lsum (map (fun s => inner s e) ss)).
  { intros ss. induction ss as [|s ss IH]; intros a; cbn [fold_left map lsum]; [unfold lsum; cbn; ring|]. rewrite IH, IA. unfold lsum. cbn [fold_right map]. ring. }
  split; [|split]; intros HS; destruct (RES _ HS) as (ss & w & E & NE & S2 & EW); exists w; (split; [exact E|]); rewrite EW, FS, IZ.
  - destruct ss as [|s ss]; [contradiction|]. assert (A : lsum (map (fun s => inner s e) (s :: ss)) < 0); [|lra].
    assert (B : forall l, Forall (fun s => exists k x, 0 < k /\ x < 0 /\ inner s e = k * x) l -> lsum (map (fun s => inner s e) l) <= 0).
    { induction 1 as [|s' l (k & x & K & X & EK) _ IH]; [unfold lsum; cbn; lra|]. unfold lsum in *. cbn [map fold_right]. rewrite EK. nra. }
    inversion S2 as [|s' l (k & x & K & X & EK) S3]; subst. specialize (B ss S3). unfold lsum in *. cbn [map fold_right]. rewrite EK. nra.
  - destruct ss as [|s ss]; [contradiction|]. assert (A : 0 < lsum (map (fun s => inner s e) (s :: ss))); [|lra].
    assert (B : forall l, Forall (fun s => exists k x, 0 < k /\ 0 < x /\ inner s e = k * x) l -> 0 <= lsum (map (fun s => inner s e) l)).
    { induction 1 as [|s' l (k & x & K & X & EK) _ IH]; [unfold lsum; cbn; lra|]. unfold lsum in *. cbn [map fold_right]. rewrite EK. nra. }
    inversion S2 as [|s' l (k & x & K & X & EK) S3]; subst. specialize (B ss S3). unfold lsum in *. cbn [map fold_right]. rewrite EK. nra.
  - assert (A : lsum (map (fun s => inner s e) ss) = 0); [|rewrite A; ring]. clear -S2.
    induction S2 as [|s l (k & x & K & X & EK) _ IH]; [reflexivity|]. unfold lsum in *. cbn [map fold_right]. rewrite EK, X, IH. ring.
Qed.
(** From the thrust coefficient to the far field: with the axial induction a of the rotor (C106), the wind at the vector [d] from the hub
    is the free wind plus a |U| R^2/2 d/|d|^3 *)
Theorem C153_thrust_to_far : forall minim t sh v hub U Rr yaw r cts Lam L Om,
  built minim t sh v hub U Rr yaw -> 0 < Rr -> 0 < length3 U -> cts <> [] ->
  default_to t Lam = Some L -> speed_of L (length3 U) Rr Om -> 20 <= Om * Rr / length3 U ->
  let CT := lsum cts / INR (len cts) in
  let e := eps_conv CT (length3 U) Om Rr in
  (CT <= 8976 / 10000 -> CT * (1 + e) <= 1) ->
  exists t', update_loading minim r (Some (map Fin cts : list XN)) None Lam (Some 1%nat) None t = (t', Ok tt) /\
    forall o c cut (ps : list R3) i p, tang_only o -> model_of t o = "VCFF"%string -> ground_on t o = false -> o_far o = Fin cut ->
      skew_is t sh v U yaw c -> Rabs c <= 1 / 10000000 -> nth_error ps i = Some p ->
      let d := sub3 p hub in let shaft := rotate v yaw sh in
      cut * Rr < length3 d -> beside shaft d -> beyond shaft d ->
      exists us, snd (compute_u t' o (map lift3 ps)) = Ok us /\
        nth_error us i = Some (lift3 (add3 (if o_only_ind o then zero else U) (scal3 (ind_of CT e * length3 U * Rr ^ 2 / (2 * length3 d ^ 3)) d))).
Proof.
  intros minim t sh v hub U Rr yaw r cts Lam L Om HB hR hU HC HL HS H20 CT e HE.
  pose proof (built_WF _ _ _ _ _ _ _ _ HB) as H.
  destruct (load_one minim t sh v hub U Rr yaw r cts Lam L Om H hR hU HC HL HS H20 HE) as (t' & EL & EG & EC & EGr & EM). fold CT e in EG.
  exists t'. split; auto. intros o c cut ps i p HO HM HN HF SK Hc Hi d shaft HD B1 B2.
  assert (HB' : built minim t' sh v hub U Rr yaw) by (replace t' with (fst (t', @Ok unit tt)) by reflexivity; rewrite <- EL; apply b_load; auto).
  destruct (C153_far_wind minim t' sh v hub U Rr yaw o (- (2 * ind_of CT e * length3 U)) c cut ps i p HB' hR HO) as (us & E1 & E2); auto.
  - unfold model_of in *. rewrite EM. auto.
  - unfold skew_is. rewrite EC. exact SK.
  - unfold ground_on in *. rewrite EGr. auto.
  - exists us. split; auto. rewrite E2. do 3 f_equal. fold d. unfold source. f_equal.
    assert (LD : length3 d <> 0).
    { pose proof (wf_frame _ _ _ _ _ _ _ H) as FR. pose proof (special_len _ (loc_special sh v yaw hub p FR B1 B2)) as Z. rewrite loc_length in Z by auto. fold d in Z. lra. }
    field. exact LD.
Qed.
(** A farm seen from far away is one source, at the middle of the farm and as strong as all of them together *)
Lemma length3_sq a : length3 a * length3 a = inner a a.
Proof. apply sqrt_sqrt. unfold inner. pose proof (Rsq_pos (px a)). pose proof (Rsq_pos (py a)). pose proof (Rsq_pos (pz a)). lra. Qed.
Lemma length3_pos a : 0 <= length3 a. Proof. apply sqrt_pos. Qed.
Lemma inner_le a b : inner a b <= length3 a * length3 b.
Proof.
  assert (Q : inner a b * inner a b <= inner a a * inner b b).
  { assert (0 <= (px a * py b - py a * px b) ^ 2 + (px a * pz b - pz a * px b) ^ 2 + (py a * pz b - pz a * py b) ^ 2) by (pose proof (pow2_ge_0 (px a * py b - py a * px b)); pose proof (pow2_ge_0 (px a * pz b - pz a * px b)); pose proof (pow2_ge_0 (py a * pz b - pz a * py b)); lra).
    unfold inner. lra. }
  rewrite <- !length3_sq in Q. pose proof (Rmult_le_pos _ _ (length3_pos a) (length3_pos b)) as P. set (L := length3 a * length3 b) in *.
  replace (length3 a * length3 a * (length3 b * length3 b)) with (L * L) in Q by (unfold L; ring). destruct (Rle_lt_dec (inner a b) L); auto. nra.
Qed.
Lemma length3_add a b : length3 (add3 a b) <= length3 a + length3 b.
Proof.
  assert (Q : length3 (add3 a b) * length3 (add3 a b) <= (length3 a + length3 b) * (length3 a + length3 b)).
  { rewrite length3_sq. replace (inner (add3 a b) (add3 a b)) with (inner a a + 2 * inner a b + inner b b) by (unfold inner, add3; cbn [px py pz fst snd]; ring).
    rewrite <- !length3_sq. pose proof (inner_le a b). lra. }
  pose proof (length3_pos (add3 a b)). pose proof (length3_pos a). pose proof (length3_pos b). nra.
Qed.
Lemma source_shift g Rr d h : 2 * length3 h <= length3 d -> 0 < length3 d ->
  length3 (sub3 (source g Rr (add3 d h)) (source g Rr d)) <= 11 / 2 * Rabs g * Rr ^ 2 * length3 h / length3 d ^ 3.
Proof.
  intros Hh Hd. set (a := length3 (add3 d h)). set (b := length3 d) in *. set (e := length3 h) in *. pose proof (length3_pos h) as He. fold e in He.
  assert (A1 : a <= b + e) by apply length3_add.
  assert (A2 : b <= a + e).
  { assert (E : b = length3 (add3 (add3 d h) (scal3 (-1) h))) by (unfold b; f_equal; destruct d as [[d0 d1] d2], h as [[h0 h1] h2]; unfold add3, scal3, px, py, pz; cbn [fst snd]; apply tri; ring).
    rewrite E. pose proof (length3_add (add3 d h) (scal3 (-1) h)) as T. rewrite (length3_scal (-1) h) in T. replace (Rabs (-1)) with 1 in T by (rewrite Rabs_left; lra). fold a e in T. lra. }
  assert (A3 : b / 2 <= a) by lra. assert (Ha : 0 < a) by lra.
  set (k := - (g * Rr ^ 2) / 4).
  assert (ES : sub3 (source g Rr (add3 d h)) (source g Rr d) = scal3 k (add3 (scal3 (/ a ^ 3) h) (scal3 (/ a ^ 3 - / b ^ 3) d))).
  { unfold source. fold a b. unfold k. destruct d as [[d0 d1] d2], h as [[h0 h1] h2]. unfold sub3, add3, scal3, px, py, pz; cbn [fst snd]. apply tri; field; lra. }
  rewrite ES, length3_scal. pose proof (length3_add (scal3 (/ a ^ 3) h) (scal3 (/ a ^ 3 - / b ^ 3) d)) as T. rewrite !length3_scal in T. fold b e in T.
  assert (EK : Rabs k = Rabs g * Rr ^ 2 / 4). { unfold k, Rdiv. rewrite Rabs_mult, Rabs_Ropp, Rabs_mult, (Rabs_right (Rr ^ 2)), (Rabs_right (/ 4)); [reflexivity|lra|pose proof (pow2_ge_0 Rr); lra]. }
  rewrite EK. replace (11 / 2 * Rabs g * Rr ^ 2 * e / b ^ 3) with (Rabs g * Rr ^ 2 / 4 * (22 * e / b ^ 3)) by (field; lra).
  apply Rmult_le_compat_l. { apply Rmult_le_pos; [apply Rmult_le_pos; [apply Rabs_pos|apply pow2_ge_0]|lra]. }
  pose proof (pow_lt _ 3 Ha) as P3. pose proof (pow_lt _ 3 Hd) as Q3.
  assert (B1 : / a ^ 3 <= 8 / b ^ 3).
  { apply (Rmult_le_reg_r (a ^ 3 * b ^ 3)); [apply Rmult_lt_0_compat; auto|]. replace (/ a ^ 3 * (a ^ 3 * b ^ 3)) with (b ^ 3) by (field; lra). replace (8 / b ^ 3 * (a ^ 3 * b ^ 3)) with ((2 * a) ^ 3) by (field; lra). apply pow_incr; lra. }
  assert (B2 : Rabs (/ a ^ 3 - / b ^ 3) * b <= 14 * e / b ^ 3).
  { assert (D : Rabs (b - a) <= e) by (apply Rabs_le; lra).
    replace (/ a ^ 3 - / b ^ 3) with ((b - a) * ((b * b + a * b + a * a) / (a ^ 3 * b ^ 3))) by (field; lra).
    assert (K : 0 <= (b * b + a * b + a * a) / (a ^ 3 * b ^ 3)) by (apply Rmult_le_pos; [nra|apply Rlt_le, Rinv_0_lt_compat, Rmult_lt_0_compat; auto]).
    rewrite Rabs_mult, (Rabs_right ((b * b + a * b + a * a) / (a ^ 3 * b ^ 3))) by (apply Rle_ge; exact K).
    assert (K2 : (b * b + a * b + a * a) / (a ^ 3 * b ^ 3) * b <= 14 / b ^ 3).
    { apply (Rmult_le_reg_r (a ^ 3 * b ^ 3)); [apply Rmult_lt_0_compat; auto|]. replace ((b * b + a * b + a * a) / (a ^ 3 * b ^ 3) * b * (a ^ 3 * b ^ 3)) with (b * (b * b + a * b + a * a)) by (field; lra).
      replace (14 / b ^ 3 * (a ^ 3 * b ^ 3)) with (14 * a ^ 3) by (field; lra). assert (M1 : b * b <= 4 * (a * a)) by nra. assert (M2 : a * b <= 2 * (a * a)) by nra.
      assert (M3 : b * (b * b + a * b + a * a) <= (2 * a) * (7 * (a * a))) by (apply Rmult_le_compat; nra). lra. }
    rewrite Rmult_assoc. apply Rle_trans with (e * (14 / b ^ 3)); [|apply Req_le; field; lra].
    apply Rmult_le_compat; [apply Rabs_pos|apply Rmult_le_pos; lra|exact D|exact K2]. }
  rewrite (Rabs_right (/ a ^ 3)) in T by (apply Rle_ge, Rlt_le, Rinv_0_lt_compat; auto).
  assert (B3 : / a ^ 3 * e <= 8 * e / b ^ 3) by (replace (8 * e / b ^ 3) with (8 / b ^ 3 * e) by (field; lra); apply Rmult_le_compat_r; auto).
  replace (22 * e / b ^ 3) with (8 * e / b ^ 3 + 14 * e / b ^ 3) by (field; lra). lra.
Qed.
Theorem C153_farm_as_one : forall (h : heap XN) (f : farm) (ts : list (turbine XN)) (o : opts XN) (U0 p mid : R3) (size : R) (hgR : list (R3 * R * R)),
  members h f ts -> tang_only o ->
  (* the turbines, their hubs, intensities and radii; all the hubs lie within [size] of [mid], and the point is further than twice that *)
  Forall2 (fun t x => exists shaft, far_case o p t (fst (fst x)) shaft (snd (fst x)) (snd x)) ts hgR ->
  Forall (fun x => length3 (sub3 mid (fst (fst x))) <= size) hgR -> 2 * size <= length3 (sub3 p mid) -> 0 < length3 (sub3 p mid) ->
  exists w, snd (velocity_field h f o (Some (lift3 U0)) [lift3 p]) = Ok [lift3 w] /\
    length3 (sub3 w (add3 U0 (scal3 (- lsum (map (fun x => snd (fst x) * snd x ^ 2) hgR) / (4 * length3 (sub3 p mid) ^ 3)) (sub3 p mid))))
      <= 11 / 2 * lsum (map (fun x => Rabs (snd (fst x)) * snd x ^ 2) hgR) * size / length3 (sub3 p mid) ^ 3.
Proof.
  intros h f ts o U0 p mid size hgR HM HO HF HS H2 HP.
  assert (FT : Forall2 (far_turbine o p) ts (map (fun x => source (snd (fst x)) (snd x) (sub3 p (fst (fst x)))) hgR)).
  { clear HM HS. induction HF as [|t [[hub g] Rr] ts l (shaft & HC) HF IH]; cbn [map]; constructor; auto. exists hub, shaft, g, Rr. auto. }
  eexists. split; [apply (C153_farm h f ts o U0 p _ HM HO FT)|]. clear FT HF HM.
  set (D := sub3 p mid) in *. set (b := length3 D) in *. pose proof (pow_lt _ 3 HP) as P3.
  assert (IND : forall l a, Forall (fun x : R3 * R * R => length3 (sub3 mid (fst (fst x))) <= size) l ->
    length3 (sub3 (fold_left add3 (map (fun x => source (snd (fst x)) (snd x) (sub3 p (fst (fst x)))) l) a) (add3 a (scal3 (- lsum (map (fun x => snd (fst x) * snd x ^ 2) l) / (4 * b ^ 3)) D)))
      <= 11 / 2 * lsum (map (fun x => Rabs (snd (fst x)) * snd x ^ 2) l) * size / b ^ 3).
  { induction l as [|[[hub g] Rr] l IH]; intros a Hl; cbn [map fold_left fst snd].
    - unfold lsum; cbn [fold_right]. replace (sub3 a (add3 a (scal3 (- 0 / (4 * b ^ 3)) D))) with zero by (destruct a as [[a0 a1] a2], D as [[d0 d1] d2]; unfold sub3, add3, scal3, zero, px, py, pz; cbn [fst snd]; apply tri; field; lra).
      replace (length3 zero) with 0 by (symmetry; unfold length3; rewrite <- sqrt_0; f_equal; unfold inner, zero; cbn [px py pz fst snd]; ring). apply Req_le. field. lra.
    - inversion Hl as [|x l' Hx Hl' E]; subst. cbn [fst snd] in Hx. specialize (IH (add3 a (source g Rr (sub3 p hub))) Hl').
      set (s := source g Rr (sub3 p hub)) in *. set (F := fold_left add3 (map (fun x => source (snd (fst x)) (snd x) (sub3 p (fst (fst x)))) l) (add3 a s)) in *.
      set (S := lsum (map (fun x : R3 * R * R => snd (fst x) * snd x ^ 2) l)) in *. set (T := lsum (map (fun x : R3 * R * R => Rabs (snd (fst x)) * snd x ^ 2) l)) in *.
      change (lsum (g * Rr ^ 2 :: map (fun x : R3 * R * R => snd (fst x) * snd x ^ 2) l)) with (g * Rr ^ 2 + S). change (lsum (Rabs g * Rr ^ 2 :: map (fun x : R3 * R * R => Rabs (snd (fst x)) * snd x ^ 2) l)) with (Rabs g * Rr ^ 2 + T).
      assert (EH : sub3 p hub = add3 D (sub3 mid hub)) by (unfold D; destruct p as [[p0 p1] p2], mid as [[m0 m1] m2], hub as [[h0 h1] h2]; unfold sub3, add3, px, py, pz; cbn [fst snd]; apply tri; ring).
      assert (ED : sub3 F (add3 a (scal3 (- (g * Rr ^ 2 + S) / (4 * b ^ 3)) D)) = add3 (sub3 F (add3 (add3 a s) (scal3 (- S / (4 * b ^ 3)) D))) (sub3 s (source g Rr D))).
      { unfold source. fold b. generalize F s. intros [[F0 F1] F2] [[s0 s1] s2]. destruct a as [[a0 a1] a2], D as [[d0 d1] d2]. unfold sub3, add3, scal3, px, py, pz; cbn [fst snd]. apply tri; field; lra. }
      rewrite ED. eapply Rle_trans; [apply length3_add|].
      assert (SH : length3 (sub3 s (source g Rr D)) <= 11 / 2 * Rabs g * Rr ^ 2 * length3 (sub3 mid hub) / b ^ 3) by (unfold s; rewrite EH; apply source_shift; fold b; lra).
      assert (K : 11 / 2 * Rabs g * Rr ^ 2 * length3 (sub3 mid hub) / b ^ 3 <= 11 / 2 * Rabs g * Rr ^ 2 * size / b ^ 3).
      { apply Rmult_le_compat_r; [apply Rlt_le, Rinv_0_lt_compat; auto|]. apply Rmult_le_compat_l; auto. apply Rmult_le_pos; [apply Rmult_le_pos; [lra|apply Rabs_pos]|apply pow2_ge_0]. }
      replace (11 / 2 * (Rabs g * Rr ^ 2 + T) * size / b ^ 3) with (11 / 2 * T * size / b ^ 3 + 11 / 2 * Rabs g * Rr ^ 2 * size / b ^ 3) by (field; lra). lra. }
  specialize (IND hgR zero HS). rewrite add3_z_l in IND.
  match goal with |- length3 ?X <= _ => match type of IND with length3 ?Y <= _ => replace X with Y; [exact IND|] end end.
  generalize (fold_left add3 (map (fun x : R3 * R * R => source (snd (fst x)) (snd x) (sub3 p (fst (fst x)))) hgR) zero) (scal3 (- lsum (map (fun x : R3 * R * R => snd (fst x) * snd x ^ 2) hgR) / (4 * b ^ 3)) D). clear.
  intros [[F0 F1] F2] [[s0 s1] s2]. destruct U0 as [[a0 a1] a2]. unfold sub3, add3, px, py, pz; cbn [fst snd]. apply tri; ring.
Qed.
(** the hypotheses are met: a turbine of radius 50 m with its shaft in the wind, loaded by the user's own function, 500 m to the side of it *)
Definition wt50s (model : string) (g : R) : turbine XN :=
  fst (update_loading (N := XN) (fun _ _ _ => Fin 0) (Some [Fin 1]) (Some [Fin g]) None (Some (Fin 7)) None (Some (fun c => Ok c))
    (new_turbine (N := XN) (Fin 50) (lift3 (0, 0, 90)) (lift3 (1, 0, 0)) (lift3 (0, 0, 1)) (lift3 (10, 0, 0)) None None "" false model)).
Example C153_nonvacuous : forall g,
  far_turbine default_opts (0, 500, 90) (wt50s "VCFF" g) (source g 50 (0, 500, 0)) /\ source g 50 (0, 500, 0) = (0, - g / 400, 0) /\
  tang_only default_opts /\ members [OWT (wt50s "VCFF" g)] [0]%nat [wt50s "VCFF" g] /\
  built (fun _ _ _ => Fin 0) (wt50s "VD" g) (1,0,0) (0,0,1) (0,0,90) (10, 0, 0) 50 0 /\ model_of (wt50s "VD" g) default_opts = "VD"%string /\ t_gt (wt50s "VD" g) = Some [Fin g : XN] /\
  off_axis 0 200 (0, 500, -3) /\ 4 * 50 <= 200 /\ 1 / 10000000 * 50 <= sqrt (0 * 0 + 500 * 500).
Proof.
  intros g. pose proof PI_RGT_0 as HPI. assert (HF : frame (1,0,0) (0,0,1)) by (repeat split; unfold unit3, perp, inner, px, py, pz; cbn [fst snd]; ring).
  assert (HB : forall m, built (fun _ _ _ => Fin 0) (wt50s m g) (1,0,0) (0,0,1) (0,0,90) (10, 0, 0) 50 0) by (intros m; apply b_load, b_new, HF).
  assert (ES : sub3 (0, 500, 90) (0, 0, 90) = (0, 500, 0)) by (unfold sub3, px, py, pz; cbn [fst snd]; apply tri; ring).
  assert (ER : rotate (0,0,1) 0 (1,0,0) = (1,0,0)) by (rewrite rotate_frame by auto; rewrite cos_0, sin_0; apply eq3; unf; ring).
  assert (EL : length3 (0, 500, 0) = 500) by (unfold length3; transitivity (sqrt (500 * 500)); [f_equal; unf; ring|apply sqrt_square; lra]).
  assert (EI : inner (0, 500, 0) (1, 0, 0) = 0) by (unf; ring).
  split; [|split; [|split; [|split; [|split; [|split; [|split; [|split; [|split]]]]]]]].
  - exists (0,0,90), (1,0,0), g, 50. split; [|rewrite ES; reflexivity]. exists (fun _ _ _ => Fin 0), (1,0,0), (0,0,1), (10,0,0), 0, 0.
    split; [apply HB|]. split; [lra|]. split; [reflexivity|]. split.
    { right. split; [reflexivity|]. exists 10, 0, 0. repeat split; try lra. unfold wind. rewrite rotate_frame by auto. rewrite cos_0, sin_0. apply eq3; unf; ring. }
    split; [rewrite Rabs_R0; lra|]. split; [reflexivity|]. split; [symmetry; exact ER|]. rewrite ES. split; [|right; split; [reflexivity|]; exists 6; rewrite EL; split; [reflexivity|]; split; [lra|left; exact EI]].
    left. rewrite EI. replace (sub3 (0, 500, 0) (scal3 0 (1, 0, 0))) with ((0, 500, 0) : R3) by (apply eq3; unf; ring). rewrite EL. lra.
  - unfold source. rewrite EL. apply eq3; unf; field.
  - repeat split.
  - repeat constructor.
  - apply HB.
  - reflexivity.
  - reflexivity.
  - intros s _. rewrite <- (sqrt_square 200) by lra. unfold length3. apply sqrt_le_1_alt. unfold inner, sub3, px, py, pz. cbn [fst snd]. pose proof (Rsq_pos (0 - 0 * s)). pose proof (Rsq_pos (-3 - s)). lra.
  - lra.
  - replace (0 * 0 + 500 * 500) with (500 * 500) by ring. rewrite sqrt_square; lra.
Qed.
(** ... and 400 m upstream, 300 m to the side *)
Example C153_upstream : forall g, g < 0 -> exists hub g' Rr, far_case default_opts (-400, 300, 90) (wt50s "VCFF" g) hub (1, 0, 0) g' Rr /\ g' < 0 /\ inner (sub3 (-400, 300, 90) hub) (1, 0, 0) < 0.
Proof.
  intros g hg. pose proof PI_RGT_0 as HPI. assert (HF : frame (1,0,0) (0,0,1)) by (repeat split; unfold unit3, perp, inner, px, py, pz; cbn [fst snd]; ring).
  assert (ES : sub3 (-400, 300, 90) (0, 0, 90) = (-400, 300, 0)) by (unfold sub3, px, py, pz; cbn [fst snd]; apply tri; ring).
  assert (ER : rotate (0,0,1) 0 (1,0,0) = (1,0,0)) by (rewrite rotate_frame by auto; rewrite cos_0, sin_0; apply eq3; unf; ring).
  assert (EL : length3 (-400, 300, 0) = 500) by (unfold length3; transitivity (sqrt (500 * 500)); [f_equal; unf; ring|apply sqrt_square; lra]).
  assert (EI : inner (-400, 300, 0) (1, 0, 0) = -400) by (unf; ring).
  exists (0,0,90), g, 50. rewrite ES, EI. split; [|split; lra].
  exists (fun _ _ _ => Fin 0), (1,0,0), (0,0,1), (10,0,0), 0, 0.
  split; [apply b_load, b_new, HF|]. split; [lra|]. split; [reflexivity|]. split.
  { right. split; [reflexivity|]. exists 10, 0, 0. repeat split; try lra. unfold wind. rewrite rotate_frame by auto. rewrite cos_0, sin_0. apply eq3; unf; ring. }
  split; [rewrite Rabs_R0; lra|]. split; [reflexivity|]. split; [symmetry; exact ER|]. rewrite ES.
  split; [|right; split; [reflexivity|]; exists 6; rewrite EL; split; [reflexivity|]; split; [lra|]; unfold beyond; rewrite EI; right; rewrite Rabs_left by lra; lra]. unfold beside. cbv zeta. rewrite EI. left.
  replace (sub3 (-400, 300, 0) (scal3 (-400) (1, 0, 0))) with ((0, 300, 0) : R3) by (apply eq3; unf; ring).
  replace (length3 (0, 300, 0)) with 300; [lra|]. symmetry. unfold length3. transitivity (sqrt (300 * 300)); [f_equal; unf; ring|apply sqrt_square; lra].
Qed.
(** ... and with the ground: the image of the hub is 90 m under it *)
Example C153_ground_case : forall g, let t := wt50s "VCFF" g in
  let o := {| o_only_ind := false; o_longi := false; o_tang := true; o_root := false; o_no_wake := false; o_ground := Some true; o_Model := None; o_far := (Fin 6 : XN) |} : opts XN in
  built (fun _ _ _ => Fin 0) t (1,0,0) (0,0,1) (0,0,90) (10,0,0) 50 0 /\ tang_only o /\ model_of t o = "VCFF"%string /\ t_gt t = Some [Fin g : XN] /\ skew_is t (1,0,0) (0,0,1) (10,0,0) 0 0 /\
  ground_on t o = true /\ o_far o = Fin 6 /\ rotate (0,0,1) 0 (1,0,0) = (1,0,0) /\
  sub3 (0, 500, 90) (sub3 (0,0,90) (scal3 (2 * inner (0,0,90) (0,0,1)) (0,0,1))) = (0, 500, 180) /\
  6 * 50 < length3 (0, 500, 180) /\ beside (1,0,0) (0, 500, 180) /\ beyond (1,0,0) (0, 500, 180).
Proof.
  intros g t o. pose proof PI_RGT_0 as HPI. assert (HF : frame (1,0,0) (0,0,1)) by (repeat split; unfold unit3, perp, inner, px, py, pz; cbn [fst snd]; ring).
  assert (ER : rotate (0,0,1) 0 (1,0,0) = (1,0,0)) by (rewrite rotate_frame by auto; rewrite cos_0, sin_0; apply eq3; unf; ring).
  assert (EI : inner (0, 500, 180) (1, 0, 0) = 0) by (unf; ring).
  assert (EL : 500 <= length3 (0, 500, 180)) by (apply Rle_trans with (sqrt (500 * 500)); [rewrite sqrt_square; lra|]; unfold length3; apply sqrt_le_1_alt; unfold inner, px, py, pz; cbn [fst snd]; lra).
  split; [apply b_load, b_new, HF|]. split; [repeat split|]. split; [reflexivity|]. split; [reflexivity|]. split.
  { right. split; [reflexivity|]. exists 10, 0, 0. repeat split; try lra. unfold wind. rewrite rotate_frame by auto. rewrite cos_0, sin_0. apply eq3; unf; ring. }
  split; [reflexivity|]. split; [reflexivity|]. split; [exact ER|]. split; [apply eq3; unf; ring|]. split; [lra|]. split; [|left; exact EI].
  left. rewrite EI. replace (sub3 (0, 500, 180) (scal3 0 (1, 0, 0))) with ((0, 500, 180) : R3) by (apply eq3; unf; ring). lra.
Qed.
(** ... two turbines within 10 m of (0,0,80), seen from 500 m *)
Example C153_farm_case : forall g, g < 0 -> let t := wt50s "VCFF" g in
  members [OWT t; OWT t] [0; 1]%nat [t; t] /\
  (exists hgR, Forall2 (fun t x => exists shaft, far_case default_opts (-400, 300, 90) t (fst (fst x)) shaft (snd (fst x)) (snd x)) [t; t] hgR /\
     Forall (fun x => length3 (sub3 (0, 0, 80) (fst (fst x))) <= 10) hgR) /\ 2 * 10 <= length3 (sub3 (-400, 300, 90) (0, 0, 80)).
Proof.
  intros g hg t. split; [repeat constructor|]. split.
  - assert (A : exists x : R3 * R * R, (exists shaft, far_case default_opts (-400, 300, 90) t (fst (fst x)) shaft (snd (fst x)) (snd x)) /\ length3 (sub3 (0, 0, 80) (fst (fst x))) <= 10).
    { exists ((0, 0, 90), g, 50). cbn [fst snd]. split.
      - exists (1, 0, 0). pose proof (C153_upstream g hg) as (hub & g' & R' & HC & _). 
        assert (E : hub = (0, 0, 90) /\ g' = g /\ R' = 50).
        { destruct HC as (minim & sh & v & U & yaw & c & HB & _ & HG & _). pose proof (built_WF _ _ _ _ _ _ _ _ HB) as H.
          pose proof (wf_R _ _ _ _ _ _ _ H) as E1. pose proof (wf_hub _ _ _ _ _ _ _ H) as E2. cbn in E1, HG.
          split; [apply lift3_inj; rewrite <- E2; reflexivity|]. split; congruence. }
        destruct E as (-> & -> & ->). exact HC.
      - apply Req_le. unfold length3. transitivity (sqrt (10 * 10)); [f_equal; unf; ring|apply sqrt_square; lra]. }
    destruct A as (x & A1 & A2). exists [x; x]. split; [apply Forall2_cons; [exact A1|apply Forall2_cons; [exact A1|apply Forall2_nil]]|apply Forall_cons; [exact A2|apply Forall_cons; [exact A2|apply Forall_nil]]].
  - apply Rle_trans with (sqrt (20 * 20)); [rewrite sqrt_square; lra|]. unfold length3. apply sqrt_le_1_alt. unfold inner, sub3, px, py, pz. cbn [fst snd]. lra.
Qed.
