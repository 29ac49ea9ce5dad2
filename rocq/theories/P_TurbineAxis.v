(** * C120: the induced velocity around a turbine, through the public interface *)
From Coquelicot Require Import Coquelicot.
From Coq Require Import ZArith List Bool Arith Lia String Reals Lra Psatz.
From Verif Require Import Num NumR NumX Spec M_Elliptic M_Line M_Doublet M_Misc M_Cylinder M_Skewed
  M_Solver M_Turbine L_List L_Calc L_X L_Turbine L_State L_Farm L_Geom L_Angles L_TurbineX L_TurbineY L_Multi L_Built P_Turbine P_Line P_Skewed P_Cylinder2 P_Grid P_Centre P_Blockage.
Import ListNotations.
Local Notation len := List.length.
Local Open Scope R_scope.

(** one cylinder, no skew, no ground: the answer is the kernel's value, turned into the turbine's frame *)
Lemma tang_point t sh v hub U Rr yaw o g c (ps : list R3) i p (a : R3) :
  WF t sh v hub U Rr yaw -> tang_only o -> model_of t o = "VC"%string -> t_gt t = Some [Fin g : XN] ->
  skew_is t sh v U yaw c -> Rabs c <= 1 / 10000000 -> ground_on t o = false -> nth_error ps i = Some p ->
  nth_error (vcU (Fin g) (Fin Rr) (Fin 0) (map xv (map (loc sh v yaw hub) ps))) i = Some (xv a) -> (g = 0 -> a = zero) ->
  exists us, snd (compute_u t o (map lift3 ps)) = Ok us /\
    nth_error us i = Some (lift3 (add3 (mv (c2g sh v yaw) a) (if o_only_ind o then zero else U))).
Proof.
  intros H HO HM HG HS Hc HN Hi EA HZ. set (w := vcU (Fin g) (Fin Rr) (Fin 0) (map xv (map (loc sh v yaw hub) ps))) in *.
  assert (L : (i < len (map lift3 ps))%nat) by (rewrite map_length; apply nth_error_Some; rewrite Hi; discriminate).
  exists (finish t o (map lift3 ps) (fsum (fzero (map lift3 ps)) (if Reqb g 0 then [] else [w]))). split.
  - apply (single_no_ground _ _ _ _ _ _ _ _ _ _ _ H HO HG HN). rewrite HM, (skew_chi _ _ _ _ _ _ _ _ H HS).
    unfold cu_tang1. cbn [String.eqb Ascii.eqb Bool.eqb]. rewrite skewed_fin. replace (Rltb _ _) with false by (symmetry; apply Rltb_false; lra).
    rewrite (wf_R _ _ _ _ _ _ _ H). reflexivity.
  - apply (finish_at _ _ _ _ _ _ _ _ _ _ _ _ H); [apply HO|]. apply fsum1_at; auto.
Qed.
Lemma shaft_unit sh v yaw : frame sh v -> inner (rotate v yaw sh) (rotate v yaw sh) = 1.
Proof.
  intros HF. assert (E : mv (c2g sh v yaw) (0, 0, 1) = rotate v yaw sh).
  { rewrite c2g_mv; unfold px, py, pz; cbn [fst snd]. f_equal. apply eq3; unf; ring. }
  rewrite <- E at 1. rewrite shaft_comp by auto. reflexivity.
Qed.
Lemma loc_axis sh v yaw hub s : frame sh v -> loc sh v yaw hub (add3 hub (scal3 s (rotate v yaw sh))) = (0, 0, s).
Proof.
  intros HF. unfold loc. replace (sub3 (add3 hub (scal3 s (rotate v yaw sh))) hub) with (mv (c2g sh v yaw) (0, 0, s)).
  2: { rewrite axis_image by auto. destruct hub as [[h0 h1] h2], (scal3 s (rotate v yaw sh)) as [[a b] c]. unfold sub3, add3, px, py, pz; cbn [fst snd]. t3; ring. }
  destruct (local_comp sh v yaw (mv (c2g sh v yaw) (0, 0, s)) HF) as (E1 & E2 & E3).
  assert (A : forall a b c : R, forall e, e = mv (c2g sh v yaw) (a, b, c) -> inner (mv (c2g sh v yaw) (0, 0, s)) e = s * c).
  { intros a b c e ->. rewrite c2g_inner by auto. unf. ring. }
  rewrite (A 1 0 0) in E1; [|rewrite c2g_mv; unfold px, py, pz; cbn [fst snd]; f_equal; apply eq3; unf; ring].
  rewrite (A 0 0 1) in E3; [|rewrite c2g_mv; unfold px, py, pz; cbn [fst snd]; f_equal; apply eq3; unf; ring].
  rewrite (A 0 1 0) in E2.
  2: { rewrite c2g_mv; unfold px, py, pz; cbn [fst snd]. replace (add3 (add3 (scal3 0 (vprod v sh)) (scal3 1 v)) (scal3 0 sh)) with v by (apply eq3; unf; ring). symmetry. apply rotate_axis; apply HF. }
  destruct (mv (mtr (N := RN) (c2g sh v yaw)) (mv (c2g sh v yaw) (0, 0, s))) as [[q0 q1] q2]. unfold px, py, pz in *; cbn [fst snd] in *. subst. t3; ring.
Qed.
(** C120.  On the axis of a turbine, s metres downstream of the hub (upstream for s<0): the free wind plus
    g/2 (1 + s/sqrt(R^2+s^2)) along the shaft, and nothing across it. *)
Theorem C120_axis_velocity : forall minim t sh v hub U Rr yaw o g c (ps : list R3) i s,
  built minim t sh v hub U Rr yaw -> 0 < Rr -> tang_only o -> model_of t o = "VC"%string -> t_gt t = Some [Fin g : XN] ->
  skew_is t sh v U yaw c -> Rabs c <= 1 / 10000000 -> ground_on t o = false ->
  let shaft := rotate v yaw sh in let free := if o_only_ind o then zero else U in
  nth_error ps i = Some (add3 hub (scal3 s shaft)) ->
  exists us, snd (compute_u t o (map lift3 ps)) = Ok us /\
    nth_error us i = Some (lift3 (add3 free (scal3 (g / 2 * (1 + s / sqrt (Rr ^ 2 + s ^ 2))) shaft))).
Proof.
  intros minim t sh v hub U Rr yaw o g c ps i s HB hR HO HM HG HS Hc HN shaft free Hi. pose proof (built_WF _ _ _ _ _ _ _ _ HB) as H. pose proof (wf_frame _ _ _ _ _ _ _ H) as HF.
  assert (Hq : nth_error (map (loc sh v yaw hub) ps) i = Some (0, 0, s)) by (rewrite nth_error_map, Hi; cbn [option_map]; unfold shaft; rewrite loc_axis by auto; reflexivity).
  destruct (C51_axis g Rr _ i s hR Hq) as [_ E].
  destruct (tang_point t sh v hub U Rr yaw o g c ps i _ _ H HO HM HG HS Hc HN Hi E) as (us & E1 & E2).
  { intros ->. unfold Rdiv. rewrite !Rmult_0_l. reflexivity. }
  exists us. split; auto. rewrite E2, axis_image by auto. rewrite add3_comm. reflexivity.
Qed.
(** the induced velocity of a turbine (g<0) points away from its axis everywhere *)
Theorem C120_expansion : forall minim t sh v hub U Rr yaw o g c (ps : list R3) i p,
  built minim t sh v hub U Rr yaw -> 0 < Rr -> tang_only o -> model_of t o = "VC"%string -> t_gt t = Some [Fin g : XN] ->
  skew_is t sh v U yaw c -> Rabs c <= 1 / 10000000 -> ground_on t o = false -> nth_error ps i = Some p ->
  let shaft := rotate v yaw sh in let free := if o_only_ind o then zero else U in
  let z := inner (sub3 p hub) shaft in                 (* distance downstream *)
  let out := sub3 (sub3 p hub) (scal3 z shaft) in      (* from the axis to the point *)
  exists us w, snd (compute_u t o (map lift3 ps)) = Ok us /\ nth_error us i = Some (lift3 w) /\
    g * inner (sub3 w free) out <= 0 /\
    (g <> 0 -> 1 / 10000000 * Rr <= length3 out -> ~ (Rabs (length3 out - Rr) / Rr < 1 / 100000000 /\ Rabs (z / Rr) < 1 / 100000000) ->
       g * inner (sub3 w free) out < 0).
Proof.
  intros minim t sh v hub U Rr yaw o g c ps i p HB hR HO HM HG HS Hc HN Hi shaft free z out. pose proof (built_WF _ _ _ _ _ _ _ _ HB) as H. pose proof (wf_frame _ _ _ _ _ _ _ H) as HF.
  set (q := loc sh v yaw hub p). assert (Hq : nth_error (map (loc sh v yaw hub) ps) i = Some q) by (rewrite nth_error_map, Hi; reflexivity).
  destruct (C119_expansion g Rr _ i q hR Hq) as (ux & uy & uz & E & S1 & S2). cbv zeta in S2.
  destruct (local_comp sh v yaw (sub3 p hub) HF) as (_ & _ & Q3). fold (loc sh v yaw hub p) in Q3. fold q in Q3. fold shaft in Q3. fold z in Q3.
  assert (UU : inner shaft shaft = 1) by (apply shaft_unit; auto).
  assert (LO : length3 out = sqrt (px q ^ 2 + py q ^ 2)).
  { unfold length3. f_equal. pose proof (c2g_tr_inner sh v yaw (sub3 p hub) (sub3 p hub) HF) as HI. fold (loc sh v yaw hub p) in HI. fold q in HI.
    assert (EO : inner out out = inner (sub3 p hub) (sub3 p hub) - z * z).
    { unfold out. transitivity (inner (sub3 p hub) (sub3 p hub) - 2 * z * inner (sub3 p hub) shaft + z * z * inner shaft shaft); [generalize (sub3 p hub) shaft z; intros d e y; clear; pt3; unf; ring|]. rewrite UU. fold z. ring. }
    rewrite EO, <- HI. unfold inner. rewrite Q3. ring. }
  assert (IO : forall a : R3, inner (mv (c2g sh v yaw) a) out = px a * px q + py a * py q).
  { intros a. unfold out. transitivity (inner (mv (c2g sh v yaw) a) (sub3 p hub) - z * inner (mv (c2g sh v yaw) a) shaft); [generalize (mv (c2g sh v yaw) a) (sub3 p hub) shaft z; intros b d e y; clear; pt3; unf; ring|].
    unfold shaft. rewrite shaft_comp by auto. rewrite (inner_sym (mv _ _)), <- mv_tr. fold (loc sh v yaw hub p). fold q. unfold inner. rewrite Q3. ring. }
  destruct (Req_dec g 0) as [G|G].
  - assert (Ea : nth_error (vcU (Fin g) (Fin Rr) (Fin 0) (map xv (map (loc sh v yaw hub) ps))) i = Some (xv (ux, uy, uz))) by exact E.
    assert (L : (i < len (map lift3 ps))%nat) by (rewrite map_length; apply nth_error_Some; rewrite Hi; discriminate).
    exists (finish t o (map lift3 ps) (fsum (fzero (map lift3 ps)) [])), (add3 (mv (c2g sh v yaw) zero) free).
    split; [|split; [|split; [rewrite G; lra|intros; contradiction]]].
    + pose proof (single_no_ground t sh v hub U Rr yaw o g ps (vcU (Fin g) (Fin Rr) (Fin 0) (map xv (map (loc sh v yaw hub) ps))) H HO HG HN) as K.
      replace (Reqb g 0) with true in K by (symmetry; apply Reqb_true; auto). apply K. rewrite HM, (skew_chi _ _ _ _ _ _ _ _ H HS).
      unfold cu_tang1. cbn [String.eqb Ascii.eqb Bool.eqb]. rewrite skewed_fin. replace (Rltb _ _) with false by (symmetry; apply Rltb_false; lra).
      rewrite (wf_R _ _ _ _ _ _ _ H). reflexivity.
    + apply (finish_at _ _ _ _ _ _ _ _ _ _ _ _ H); [apply HO|]. apply fzero_at. auto.
  - destruct (tang_point t sh v hub U Rr yaw o g c ps i _ _ H HO HM HG HS Hc HN Hi E ltac:(intros; contradiction)) as (us & E1 & E2).
    exists us, (add3 (mv (c2g sh v yaw) (ux, uy, uz)) free). split; [auto|]. split; [exact E2|].
    assert (EI : inner (sub3 (add3 (mv (c2g sh v yaw) (ux, uy, uz)) free) free) out = ux * px q + uy * py q).
    { etransitivity; [|exact (IO (ux, uy, uz))]. f_equal. generalize (mv (c2g sh v yaw) (ux, uy, uz)) free. intros b f. clear. pt3. apply eq3; unf; ring. }
    rewrite EI, LO. split; [exact S1|]. intros _ A B. apply S2; auto. rewrite Q3. exact B.
Qed.
(** from the thrust coefficient to the velocity on the axis: U - a |U| (1 + s/sqrt(R^2+s^2)) along the shaft (a as in C106) *)
Theorem C120_thrust_to_axis : forall minim t sh v hub U Rr yaw r cts Lam L Om,
  built minim t sh v hub U Rr yaw -> 0 < Rr -> 0 < length3 U -> cts <> [] ->
  default_to t Lam = Some L -> speed_of L (length3 U) Rr Om -> 20 <= Om * Rr / length3 U ->
  let CT := lsum cts / INR (len cts) in
  let e := eps_conv CT (length3 U) Om Rr in
  (CT <= 8976 / 10000 -> CT * (1 + e) <= 1) ->
  exists t', update_loading minim r (Some (map Fin cts : list XN)) None Lam (Some 1%nat) None t = (t', Ok tt) /\
    forall o c (ps : list R3) i s, tang_only o -> model_of t o = "VC"%string -> ground_on t o = false ->
      skew_is t sh v U yaw c -> Rabs c <= 1 / 10000000 ->
      let shaft := rotate v yaw sh in nth_error ps i = Some (add3 hub (scal3 s shaft)) ->
      exists us, snd (compute_u t' o (map lift3 ps)) = Ok us /\
        nth_error us i = Some (lift3 (sub3 (if o_only_ind o then zero else U) (scal3 (ind_of CT e * length3 U * (1 + s / sqrt (Rr ^ 2 + s ^ 2))) shaft))).
Proof.
  intros minim t sh v hub U Rr yaw r cts Lam L Om HB hR hU HC HL HS H20 CT e HE.
  pose proof (built_WF _ _ _ _ _ _ _ _ HB) as H.
  destruct (load_one minim t sh v hub U Rr yaw r cts Lam L Om H hR hU HC HL HS H20 HE) as (t' & EL & EG & EC & EGr & EM). fold CT e in EG.
  exists t'. split; auto. intros o c ps i s HO HM HN SK Hc shaft Hi.
  assert (HB' : built minim t' sh v hub U Rr yaw) by (replace t' with (fst (t', @Ok unit tt)) by reflexivity; rewrite <- EL; apply b_load; auto).
  destruct (C120_axis_velocity minim t' sh v hub U Rr yaw o (- (2 * ind_of CT e * length3 U)) c ps i s HB' hR HO) as (us & E1 & E2); auto.
  - unfold model_of in *. rewrite EM. auto.
  - unfold skew_is. rewrite EC. exact SK.
  - unfold ground_on in *. rewrite EGr. auto.
  - exists us. split; auto. rewrite E2. do 2 f_equal. fold shaft. generalize (if o_only_ind o then zero else U) shaft. intros f b. clear - hR. pt3. apply eq3; unf; field.
    all: apply Rgt_not_eq, sqrt_lt_R0; pose proof (Rsq_pos s); nra.
Qed.
(** the induction seen on the axis: 0 far upstream, a at the rotor, 2a far downstream, growing all the way *)
Theorem C120_axis_profile : forall Rr, 0 < Rr -> let f := fun s => 1 + s / sqrt (Rr ^ 2 + s ^ 2) in
  f 0 = 1 /\ (forall s1 s2, s1 < s2 -> 0 < f s1 /\ f s1 < f s2 /\ f s2 < 2) /\
  is_lim f p_infty 2 /\ is_lim f m_infty 0.
Proof.
  intros Rr hR f. assert (A : 0 < Rr ^ 2) by nra.
  assert (EF : forall s, f s = 1 + sl (Rr ^ 2) s) by (intros s; unfold f, sl; replace (s * s) with (s ^ 2) by ring; reflexivity).
  split; [rewrite EF, sl_0; ring|]. split.
  { intros s1 s2 h. rewrite !EF. pose proof (sl_bound _ s1 A). pose proof (sl_bound _ s2 A). pose proof (sl_incr _ s1 s2 A h). lra. }
  assert (LP : is_lim (fun s => sl (Rr ^ 2) s) p_infty 1).
  { apply (is_lim_le_le_loc (fun s => 1 - Rr ^ 2 * / s) (fun _ => 1)).
    - exists (Rr + 1). intros s Hs. pose proof (sl_bound _ s A). split; [|lra]. pose proof (sl_den _ s A) as D.
      (* s/w >= 1 - R^2/s as soon as s >= 1 + R: w <= s + R^2/(2s) *)
      unfold sl. apply (Rmult_le_reg_r (sqrt (Rr ^ 2 + s * s) * s)); [apply Rmult_lt_0_compat; lra|].
      replace ((1 - Rr ^ 2 * / s) * (sqrt (Rr ^ 2 + s * s) * s)) with (sqrt (Rr ^ 2 + s * s) * (s - Rr ^ 2)) by (field; lra).
      replace (s / sqrt (Rr ^ 2 + s * s) * (sqrt (Rr ^ 2 + s * s) * s)) with (s * s) by (field; lra).
      assert (W : sqrt (Rr ^ 2 + s * s) <= s + Rr ^ 2). { rewrite <- (sqrt_square (s + Rr ^ 2)) by lra. apply sqrt_le_1_alt. nra. }
      destruct (Rle_lt_dec (s - Rr ^ 2) 0) as [N|N]; [nra|]. nra.
    - replace (Finite 1) with (Rbar_plus 1 (Rbar_opp (Rbar_mult (Rr ^ 2) 0))) by (cbn; f_equal; ring).
      apply (is_lim_minus (fun _ => 1) (fun s => Rr ^ 2 * / s) p_infty 1 (Rbar_mult (Rr ^ 2) 0)); [apply is_lim_const| |reflexivity].
      apply (is_lim_scal_l (fun s => / s) (Rr ^ 2) p_infty 0). replace (Finite 0) with (Rbar_inv p_infty) by reflexivity. apply is_lim_inv; [apply is_lim_id|discriminate].
    - apply is_lim_const. }
  assert (LF : is_lim f p_infty 2).
  { apply (is_lim_ext (fun s => 1 + sl (Rr ^ 2) s)); [intros; symmetry; apply EF|]. replace (Finite 2) with (Rbar_plus 1 1) by (cbn; f_equal; ring).
    apply (is_lim_plus (fun _ => 1) (fun s => sl (Rr ^ 2) s) p_infty 1 1); [apply is_lim_const|exact LP|reflexivity]. }
  split; [exact LF|].
  apply (is_lim_ext (fun s => 2 - f (- s))). { intros s. rewrite !EF, sl_opp. ring. }
  replace (Finite 0) with (Rbar_plus 2 (Rbar_opp 2)) by (cbn; f_equal; ring).
  apply (is_lim_minus (fun _ => 2) (fun s => f (- s)) m_infty 2 2); [apply is_lim_const| |reflexivity].
  apply (is_lim_comp f Ropp m_infty 2 p_infty); [exact LF| |exists 0; intros; discriminate].
  apply (is_lim_opp (fun x => x) m_infty m_infty). apply is_lim_id.
Qed.
(** the hypotheses are met: C106's rotor with its shaft in the wind *)
Definition wt50a : turbine XN := new_turbine (N := XN) (Fin 50) (lift3 (0, 0, 90)) (lift3 (1, 0, 0)) (lift3 (0, 0, 1)) (lift3 (10, 0, 0)) None (Some PInf) "" false "VC".
Example C120_case : forall minim, built minim wt50a (1,0,0) (0,0,1) (0,0,90) (10, 0, 0) 50 0 /\
  skew_is wt50a (1,0,0) (0,0,1) (10, 0, 0) 0 0 /\ tang_only default_opts /\ ground_on wt50a default_opts = false /\ model_of wt50a default_opts = "VC"%string /\
  length3 (10, 0, 0) = 10 /\ speed_of PInf 10 50 800 /\ default_to wt50a None = Some PInf.
Proof.
  intros minim. pose proof PI_RGT_0 as HP.
  assert (HF : frame (1,0,0) (0,0,1)) by (repeat split; unfold unit3, perp, inner, px, py, pz; cbn [fst snd]; ring).
  split; [apply b_new; auto|]. split.
  { right. split; [reflexivity|]. exists 10, 0, 0. repeat split; try lra. unfold wind. rewrite rotate_frame by auto. rewrite cos_0, sin_0. apply eq3; unf; ring. }
  repeat split; [|left; auto]. unfold length3. transitivity (sqrt (10 * 10)); [f_equal; unf; ring|apply sqrt_square; lra].
Qed.
