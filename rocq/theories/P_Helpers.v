(** * C107-C113: the helpers of the article scripts *)
From Coquelicot Require Import Coquelicot.
From Coq Require Import ZArith List Bool Arith Lia String Reals Lra Psatz.
From Verif Require Import Num NumR NumX Spec M_Elliptic M_Line M_Doublet M_Misc M_Cylinder M_Skewed
  M_Solver M_Turbine M_Farm M_Helpers L_List L_Calc L_X L_Turbine L_State L_Farm L_Geom L_Angles L_TurbineX L_TurbineY L_Multi L_Built L_Layout P_Turbine P_Line P_Skewed P_Cylinder2 P_Grid P_Farm P_Centre.
Import ListNotations.
Local Notation len := List.length.
Local Open Scope R_scope.

(** ** C107: setupModel *)
Definition deg (x : R) : R := x * PI / 180.
(** the skew angle prescribed for a yaw of [Yaw] degrees and a thrust coefficient CT *)
Definition skew_of (CT Yaw : R) : R := deg (Yaw * (1 + 3 / 10 * (1 - sqrt (1 - CT)))).
Lemma deg_X x : ndiv XN (nmul XN (Fin x) (npi XN)) (nZ XN 180) = Fin (deg x).
Proof. xn. rewrite xdiv_fin by lra. reflexivity. Qed.
Lemma setup_chi_X CT Yaw : CT <= 1 -> setup_chi (N := XN) (Fin CT) (Fin Yaw) = Fin (skew_of CT Yaw).
Proof.
  intros H. unfold setup_chi.
  assert (E : nsqrt XN (nsub XN (nZ XN 1) (Fin CT)) = Fin (sqrt (1 - CT))) by (change (nsqrt XN) with xsqrt; xn; apply xsqrt_fin; lra).
  rewrite E. exact (deg_X (Yaw * (1 + 3 / 10 * (1 - sqrt (1 - CT))))).
Qed.
Lemma setup_wind_X Yaw U0 : setup_wind (N := XN) (Fin Yaw) (Fin U0) = lift3 (U0 * sin (deg Yaw), 0, U0 * cos (deg Yaw)).
Proof. unfold setup_wind. rewrite deg_X. reflexivity. Qed.
Lemma frame_zy : frame (0, 0, 1) (0, 1, 0).
Proof. repeat split; unfold unit3, perp, inner, px, py, pz; cbn [fst snd]; ring. Qed.
Lemma WF_gt t sh v hub U R yaw g : WF t sh v hub U R yaw -> WF (set_gt t g) sh v hub U R yaw.
Proof. intros [H1 H2 H3 H4 H5 H6 H7 H8 H9 H10 H11]. split; auto. Qed.
Definition with_gt (VC : vcmodel XN) (g : XN) : vcmodel XN := {| vc_WT := set_gt (vc_WT VC) (Some [g]); vc_hub := vc_hub VC |}.
Definition matched (U0 Yaw uc : R) : R := -2 * (U0 * cos (deg Yaw) - uc).
(** the optional arguments only overwrite the intensity *)
Lemma setup_opts minim CT HH Lam Yaw U0 mid g Mo :
  setupModel (N := XN) minim CT HH Lam (Fin Yaw) (option_map Fin mid) (Fin U0) g Mo =
  bind (setupModel (N := XN) minim CT HH Lam (Fin Yaw) None (Fin U0) None Mo)
       (fun VC => Ok (match g with Some g => with_gt VC g | None => match mid with Some u => with_gt VC (Fin (matched U0 Yaw u)) | None => VC end end)).
Proof.
  unfold setupModel. destruct (if nlt XN Lam (nZ XN 30) then _ else _) as [cut n]. rewrite deg_X.
  match goal with |- context [update_loading minim ?r ?c ?g ?l ?m ?f ?t0] => destruct (update_loading minim r c g l m f t0) as [t1 [[]|e]] end; [|reflexivity].
  cbn [bind]. destruct g as [g|]; [destruct mid; reflexivity|]. destruct mid as [u|]; [|reflexivity]. cbn [option_map]. unfold with_gt; cbn [vc_WT vc_hub]. do 5 f_equal.
  xn. unfold matched. f_equal. ring.
Qed.
Definition shape (VC : vcmodel XN) CT HH Yaw U0 (Mo : string) : Prop :=
  WF (vc_WT VC) (0, 0, 1) (0, 1, 0) (0, HH, 0) (U0 * sin (deg Yaw), 0, U0 * cos (deg Yaw)) 1 0 /\
  t_chi (vc_WT VC) = Some (Fin (skew_of CT Yaw) : XN) /\ t_ground (vc_WT VC) = Rltb HH 9 /\ t_model (vc_WT VC) = Mo /\
  vc_hub VC = (Fin HH : XN).
Lemma setup_shape0 minim CT HH Lam Yaw U0 Mo VC : CT <= 1 ->
  setupModel (N := XN) minim (Fin CT) (Fin HH) Lam (Fin Yaw) None (Fin U0) None Mo = Ok VC -> shape VC CT HH Yaw U0 Mo.
Proof.
  intros HC. unfold setupModel. destruct (if nlt XN Lam (nZ XN 30) then _ else _) as [cut n].
  rewrite setup_chi_X, setup_wind_X by auto.
  assert (E0 : nmul XN (Fin HH) (nZ XN 1) = Fin HH) by (xn; f_equal; ring). rewrite E0.
  set (t0 := set_chi _ _).
  assert (W0 : WF t0 (0, 0, 1) (0, 1, 0) (0, HH, 0) (U0 * sin (deg Yaw), 0, U0 * cos (deg Yaw)) 1 0).
  { apply WF_chi. apply WF_wind with (U := (0, 0, 10)). apply (WF_new 1 (0, HH, 0) (0, 0, 1) (0, 1, 0) (0, 0, 10)). apply frame_zy. }
  match goal with |- context [update_loading minim ?r ?c ?g ?l ?m ?f t0] => pose proof (WF_load minim r c g l m f t0 _ _ _ _ _ _ W0) as W1; pose proof (update_loading_fields minim r c g l m f t0) as F; destruct (update_loading minim r c g l m f t0) as [t1 [[]|e]] eqn:EU end; [|discriminate].
  cbv zeta in F. cbn [fst] in F, W1. cbn [bind]. intros E. apply Ok_inj in E. subst VC. unfold shape; cbn [vc_WT vc_hub].
  destruct F as (_ & _ & _ & _ & _ & _ & _ & _ & _ & _ & _ & Fg & Fc & Fm & _).
  split; [auto|]. split; [exact Fc|]. split; [exact Fg|]. split; [exact Fm|]. reflexivity.
Qed.
Lemma setup_shape minim CT HH Lam Yaw U0 mid g Mo VC : CT <= 1 ->
  setupModel (N := XN) minim (Fin CT) (Fin HH) Lam (Fin Yaw) (option_map Fin mid) (Fin U0) g Mo = Ok VC ->
  shape VC CT HH Yaw U0 Mo /\
  match g, mid with Some g, _ => t_gt (vc_WT VC) = Some [g] | None, Some u => t_gt (vc_WT VC) = Some [Fin (matched U0 Yaw u) : XN] | _, _ => True end.
Proof.
  intros HC. rewrite setup_opts. destruct (setupModel minim _ _ _ _ None _ None _) as [VC0|e] eqn:E; [|discriminate]. cbn [bind].
  intros H. apply Ok_inj in H. subst VC. destruct (setup_shape0 _ _ _ _ _ _ _ _ HC E) as (W & S).
  destruct g as [g|]; [|destruct mid as [u|]]; (split; [split; [try apply WF_gt; exact W|exact S]|reflexivity || exact I]).
Qed.
(** an infinite tip-speed ratio: the call succeeds *)
Lemma lsum_const (c : R) l : lsum (map (fun _ : R => c) l) = INR (len l) * c.
Proof. induction l as [|x l IH]; [cbn; ring|]. cbn [map List.length]. rewrite S_INR. change (lsum (c :: ?m)) with (c + lsum m). rewrite IH. ring. Qed.
Lemma mean_const (c : R) l : l <> [] -> lsum (map (fun _ : R => c) l) / INR (len (map (fun _ : R => c) l)) = c.
Proof. intros H. rewrite lsum_const, map_length. field. apply not_0_INR. destruct l; [contradiction|discriminate]. Qed.
Lemma setup_ct CT : Ct_const_cutoff (N := XN) (Fin CT) (nZ XN 0) None (linspace (N := XN) (nZ XN 0) (nZ XN 1) 100) = map Fin (map (fun _ => CT) (linspace (N := RN) 0 1 100)).
Proof.
  change (nZ XN 0) with (Fin 0 : XN). change (nZ XN 1) with (Fin 1 : XN). rewrite linspace_X. unfold Ct_const_cutoff. rewrite !map_map. apply map_ext_in. intros r Hr.
  unfold Ct_const_cutoff_pt. xn. replace (Rltb r 0) with false; [f_equal; ring|]. symmetry. apply Rltb_false.
  apply In_nth_error in Hr. destruct Hr as [i Hi]. rewrite linspace_seq, nth_error_map in Hi by lia.
  destruct (nth_error (seq 0 100) i) as [k|]; [|discriminate]. cbn [option_map] in Hi. injection Hi as <-.
  pose proof (pos_INR k) as K. assert (H1 : 0 < INR (100 - 1)) by (apply lt_0_INR; lia).
  rewrite Rplus_0_l. apply Rmult_le_pos; [auto|]. unfold Rdiv. apply Rmult_le_pos; [lra|]. left. apply Rinv_0_lt_compat; auto.
Qed.
Lemma length_wind U0 Yaw : 0 <= U0 -> length3 (U0 * sin (deg Yaw), 0, U0 * cos (deg Yaw)) = U0.
Proof.
  intros H. unfold length3. transitivity (sqrt (U0 * U0)); [f_equal|apply sqrt_square; auto].
  pose proof (sin2_cos2 (deg Yaw)) as S. unfold Rsqr in S. unfold inner, px, py, pz; cbn [fst snd].
  transitivity (U0 * U0 * (sin (deg Yaw) * sin (deg Yaw) + cos (deg Yaw) * cos (deg Yaw))); [ring|rewrite S; ring].
Qed.
Theorem C107_setup_succeeds : forall minim CT HH Yaw U0 mid g Mo, 0 <= CT <= 1 -> 0 < U0 <= 40 ->
  exists VC, setupModel (N := XN) minim (Fin CT) (Fin HH) PInf (Fin Yaw) (option_map Fin mid) (Fin U0) g Mo = Ok VC /\
    (mid = None -> g = None -> t_gt (vc_WT VC) = Some [Fin (- (2 * ind_of CT (eps_conv CT U0 800 1) * U0)) : XN]).
Proof.
  intros minim CT HH Yaw U0 mid g Mo HC HU.
  cut (exists VC, setupModel (N := XN) minim (Fin CT) (Fin HH) PInf (Fin Yaw) None (Fin U0) None Mo = Ok VC /\ t_gt (vc_WT VC) = Some [Fin (- (2 * ind_of CT (eps_conv CT U0 800 1) * U0)) : XN]).
  { intros (VC & E & G). rewrite setup_opts, E. cbn [bind]. eexists. split; [reflexivity|]. intros -> ->. exact G. }
  unfold setupModel. change (nlt XN PInf (nZ XN 30)) with false. cbv iota beta.
  rewrite setup_chi_X, setup_wind_X by lra. rewrite setup_ct.
  assert (E0 : nmul XN (Fin HH) (nZ XN 1) = Fin HH) by (xn; f_equal; ring). rewrite E0.
  set (t0 := set_chi _ _). set (U := (U0 * sin (deg Yaw), 0, U0 * cos (deg Yaw))).
  assert (W0 : WF t0 (0, 0, 1) (0, 1, 0) (0, HH, 0) U 1 0).
  { apply WF_chi. apply WF_wind with (U := (0, 0, 10)). apply (WF_new 1 (0, HH, 0) (0, 0, 1) (0, 1, 0) (0, 0, 10)). apply frame_zy. }
  assert (LU : length3 U = U0) by (apply length_wind; lra).
  destruct (C106_infinite_tsr CT U0 1) as (A & B & C); try lra.
  match goal with |- context [update_loading minim ?r (Some (map Fin ?l)) _ _ _ _ _] =>
    assert (M : lsum l / INR (len l) = CT) by (apply mean_const; intros K; apply (f_equal (@List.length R)) in K; rewrite linspace_len in K; discriminate);
    destruct (load_one minim t0 _ _ _ _ _ _ r l (Some PInf) PInf 800 W0) as (t' & E & G & _) end;
    try rewrite M; try rewrite LU; auto; try lra; try discriminate.
  { left; auto. }

  nT. rewrite E. cbn [bind]. eexists. split; [reflexivity|]. cbn [vc_WT]. rewrite G, M, LU. reflexivity.
Qed.
Lemma fAxial_pts HH zs : map (fun z : XN => (nmul XN z (nZ XN 0), nadd XN (nmul XN z (nZ XN 0)) (Fin HH), z)) (map Fin zs) = map lift3 (map (fun z => (0, HH, z)) zs).
Proof. rewrite !map_map. apply map_ext. intros z. xn. unfold lift3, px, py, pz; cbn [fst snd]. rewrite Rmult_0_r, Rplus_0_l. reflexivity. Qed.
Lemma vc_tang_only : tang_only vc_opts. Proof. repeat split. Qed.
(** the side conditions: no ground (hub at 9 radii or more) and any skew that is not a right angle, or no yaw and any ground clearance *)
Definition clear_case CT HH Yaw : Prop := (9 <= HH /\ cos (skew_of CT Yaw) <> 0) \/ (Yaw = 0 /\ 1 <= HH).
(** the axial velocity on the axis of [fAxial] at z=0 *)
Definition centre_velocity (VC : vcmodel XN) (u : R) : Prop :=
  forall (zs : list R) i, nth_error zs i = Some 0 ->
  exists us w, snd (vc_fAxial VC (map Fin zs)) = Ok us /\ nth_error us i = Some (lift3 w) /\ pz w = u.
Lemma centre_of VC CT HH Yaw U0 G : shape VC CT HH Yaw U0 "VC" -> t_gt (vc_WT VC) = Some [Fin G : XN] -> clear_case CT HH Yaw ->
  centre_velocity VC (U0 * cos (deg Yaw) + G / 2).
Proof.
  intros (W & EC & EG & EM & EH) Eg HG zs i Hi.
  unfold vc_fAxial, vc_query. rewrite EH, fAxial_pts.
  assert (Hp : nth_error (map (fun z => (0, HH, z)) zs) i = Some (0, HH, 0)) by (rewrite nth_error_map, Hi; reflexivity).
  assert (ES : rotate (0, 1, 0) 0 (0, 0, 1) = (0, 0, 1)) by apply rotate_0.
  assert (EI : forall w : R3, inner w (0, 0, 1) = pz w) by (intros w; unfold inner, px, py, pz; cbn [fst snd]; ring).
  assert (K : exists us w, snd (compute_u (vc_WT VC) vc_opts (map lift3 (map (fun z => (0, HH, z)) zs))) = Ok us /\ nth_error us i = Some (lift3 w) /\ pz w = U0 * cos (deg Yaw) + G / 2).
  2:{ destruct (compute_u (vc_WT VC) vc_opts _) as [t u]. exact K. }
  destruct HG as [(HG & Hc)|(HY & HG)].
  - assert (GF : ground_on (vc_WT VC) vc_opts = false) by (unfold ground_on; cbn [vc_opts o_ground]; rewrite EG; apply Rltb_false; auto).
    destruct (rotor_centre_WF _ _ _ _ _ _ _ vc_opts _ (skew_of CT Yaw) _ i W Rlt_0_1 vc_tang_only EM Eg (or_introl EC) Hc GF Hp) as (us & w & E1 & E2 & E3 & _).
    exists us, w. split; auto. split; auto. cbn [vc_opts o_only_ind] in E3. rewrite ES, !EI in E3. rewrite E3. unfold pz; cbn [snd]. field.
  - assert (SK : skew_of CT Yaw = 0) by (unfold skew_of, deg; rewrite HY, Rmult_0_l; unfold Rdiv; rewrite !Rmult_0_l; reflexivity).
    assert (L0 : length3 (sub3 (0, HH, 0) (0, HH, 0)) = 0).
    { unfold length3, inner, sub3, px, py, pz; cbn [fst snd]. rewrite !Rminus_eq_0. replace (0 * 0 + 0 * 0 + 0 * 0) with 0 by ring. apply sqrt_0. }
    assert (L1 : length3 (sub3 (0, HH, 0) (sub3 (0, HH, 0) (scal3 (2 * inner (0, HH, 0) (0, 1, 0)) (0, 1, 0)))) = 2 * HH).
    { unfold length3, inner, sub3, scal3, px, py, pz; cbn [fst snd]. match goal with |- sqrt ?a = _ => replace a with (2 * HH * (2 * HH)) by ring end. apply sqrt_square. lra. }
    assert (C0 : Rabs (skew_of CT Yaw) <= 1 / 10000000) by (rewrite SK, Rabs_R0; lra).
    pose proof (rotor_plane_WF _ _ _ _ _ _ _ vc_opts _ (skew_of CT Yaw) _ i _ W Rlt_0_1 vc_tang_only EM Eg (or_introl EC) C0 Hp) as RP. cbv zeta in RP.
    rewrite L0, L1, ES in RP. destruct RP as (us & w & E1 & E2 & E3).
    { rewrite EI. unfold sub3, pz; cbn [snd]. ring. }
    { unfold off_rim. rewrite Rabs_left by lra. lra. }
    { intros _. unfold off_rim. rewrite Rabs_right by lra. lra. }
    exists us, w. split; auto. split; auto. cbn [vc_opts o_only_ind] in E3. rewrite !EI in E3. unfold disk in E3.
    replace (Rltb 0 1) with true in E3 by (symmetry; apply Rltb_true; lra). replace (Rltb (2 * HH) 1) with false in E3 by (symmetry; apply Rltb_false; lra).
    rewrite E3. unfold pz; cbn [snd]. destruct (ground_on _ _); field.
Qed.
Theorem C107_matches_centre_velocity : forall minim CT HH Lam Yaw U0 uc VC,
  setupModel (N := XN) minim (Fin CT) (Fin HH) Lam (Fin Yaw) (Some (Fin uc)) (Fin U0) None "VC" = Ok VC -> CT <= 1 ->
  clear_case CT HH Yaw -> centre_velocity VC uc.
Proof.
  intros minim CT HH Lam Yaw U0 uc VC E HC HG.
  destruct (setup_shape minim CT HH Lam Yaw U0 (Some uc) None "VC"%string VC HC E) as (S & Eg).
  replace uc with (U0 * cos (deg Yaw) + matched U0 Yaw uc / 2) by (unfold matched; field). exact (centre_of _ _ _ _ _ _ S Eg HG).
Qed.
(** an explicit intensity wins over everything else *)
Theorem C107_explicit_intensity : forall minim CT HH Lam Yaw U0 mid g VC,
  setupModel (N := XN) minim (Fin CT) (Fin HH) Lam (Fin Yaw) (option_map Fin mid) (Fin U0) (Some (Fin g)) "VC" = Ok VC -> CT <= 1 ->
  clear_case CT HH Yaw -> centre_velocity VC (U0 * cos (deg Yaw) + g / 2).
Proof.
  intros minim CT HH Lam Yaw U0 mid g VC E HC HG.
  destruct (setup_shape minim CT HH Lam Yaw U0 mid (Some (Fin g : XN)) "VC"%string VC HC E) as (S & Eg). exact (centre_of _ _ _ _ _ _ S Eg HG).
Qed.
(** without matching: the momentum-theory induction of the thrust coefficient (see C106 for [ind_of] and [eps_conv]) *)
Theorem C107_unmatched : forall minim CT HH Yaw U0, 0 <= CT <= 1 -> 0 < U0 <= 40 -> clear_case CT HH Yaw ->
  exists VC, setupModel (N := XN) minim (Fin CT) (Fin HH) PInf (Fin Yaw) None (Fin U0) None "VC" = Ok VC /\
    centre_velocity VC (U0 * (cos (deg Yaw) - ind_of CT (eps_conv CT U0 800 1))).
Proof.
  intros minim CT HH Yaw U0 HC HU HG. destruct (C107_setup_succeeds minim CT HH Yaw U0 None None "VC" HC HU) as (VC & E & G). specialize (G eq_refl eq_refl).
  exists VC. split; [exact E|]. assert (S : shape VC CT HH Yaw U0 "VC") by (apply (setup_shape0 minim CT HH PInf Yaw U0 "VC"); [lra|exact E]).
  match goal with |- centre_velocity _ ?u => replace u with (U0 * cos (deg Yaw) + - (2 * ind_of CT (eps_conv CT U0 800 1) * U0) / 2) by field end.
  exact (centre_of _ _ _ _ _ _ S G HG).
Qed.
(** the hypotheses hold e.g. for CT=0.6, yaw 20 degrees, hub at 10 radii, or unyawed at 2 radii with the ground on *)
Example C107_case : forall minim, (exists VC, setupModel (N := XN) minim (Fin (6/10)) (Fin 10) PInf (Fin 20) (Some (Fin (8/10))) (Fin 1) None "VC" = Ok VC) /\
  clear_case (6/10) 10 20 /\ clear_case (6/10) 2 0 /\ Rltb 2 9 = true.
Proof.
  intros minim. split; [destruct (C107_setup_succeeds minim (6/10) 10 20 1 (Some (8/10)) None "VC") as (VC & E & _); try lra; exists VC; exact E|].
  split; [|split; [right; lra|apply Rltb_true; lra]]. left. split; [lra|]. apply Rgt_not_eq. pose proof PI_RGT_0 as HP.
  assert (S : 0 <= sqrt (1 - 6/10) <= 1) by (split; [apply sqrt_pos|apply Rle_trans with (sqrt 1); [apply sqrt_le_1_alt; lra|rewrite sqrt_1; lra]]).
  unfold skew_of, deg. set (s := sqrt (1 - 6/10)) in *.
  assert (A : 0 <= 20 * (1 + 3 / 10 * (1 - s)) <= 26) by lra. set (q := 20 * (1 + 3 / 10 * (1 - s))) in *.
  apply cos_gt_0; nra.
Qed.
