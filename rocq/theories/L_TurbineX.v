(** * WindTurbine in the extended reals: reachable frames, angles, superposition,
      invariances *)
From Coq Require Import ZArith List Bool Arith Lia String Reals Lra Psatz Permutation.
From Verif Require Import Num NumR NumX Spec M_Elliptic M_Line M_Doublet M_Cylinder M_Skewed
  M_Solver M_Turbine L_List L_Turbine L_State L_Farm L_Geom L_Angles.
Import ListNotations.
Local Open Scope R_scope.
Local Notation len := List.length.
Notation xpt := (XN * XN * XN)%type.

Definition liftM (M : R3 * R3 * R3) : xpt * xpt * xpt :=
  (lift3 (fst (fst M)), lift3 (snd (fst M)), lift3 (snd M)).

Lemma dot_lift (a b : R3) : dot (N := XN) (lift3 a) (lift3 b) = Fin (inner a b).
Proof. pt3; reflexivity. Qed.
Lemma cross_lift (a b : R3) : cross (N := XN) (lift3 a) (lift3 b) = lift3 (vprod a b).
Proof. pt3; reflexivity. Qed.
Lemma vsub_lift (a b : R3) : vsub (N := XN) (lift3 a) (lift3 b) = lift3 (sub3 a b).
Proof. pt3; reflexivity. Qed.
Lemma vscale_lift k (a : R3) : vscale (N := XN) (Fin k) (lift3 a) = lift3 (scal3 k a).
Proof. pt3; reflexivity. Qed.
Lemma vsubs_lift k (a : R3) : vsubs (N := XN) (lift3 a) (Fin k) = lift3 (sub3 a (k, k, k)).
Proof. pt3; reflexivity. Qed.
Lemma vadd_lift (a b : R3) : vadd (N := XN) (lift3 a) (lift3 b) = lift3 (add3 a b).
Proof. pt3; reflexivity. Qed.
Lemma shift_lift (a b : R3) : shift (N := XN) (lift3 a) (lift3 b) = lift3 (sub3 b a).
Proof. pt3; reflexivity. Qed.
Lemma norm_lift (a : R3) : norm (N := XN) (lift3 a) = Fin (length3 a).
Proof.
  pt3. unfold norm, lift3. change (nsqrt XN) with xsqrt.
  cbn [sq nadd nmul XN xadd xmul px py pz fst snd]. unfold length3.
  apply xsqrt_fin. pose proof (inner_pos (r, r1, r0)). unf; lra.
Qed.
Lemma vdivs_lift k (a : R3) : k <> 0 -> vdivs (N := XN) (lift3 a) (Fin k) = lift3 (scal3 (/ k) a).
Proof.
  intros Hk. pt3. unfold vdivs, lift3. change (ndiv XN) with xdiv. rewrite !xdiv_fin by auto.
  unfold scal3, px, py, pz; cbn [fst snd]. unfold Rdiv. t3; f_equal; ring.
Qed.
Lemma mvec_lift (M : R3 * R3 * R3) (a : R3) : mvec (N := XN) (liftM M) (lift3 a) = lift3 (mv M a).
Proof. destruct M as [[? ?] ?]. pt3; reflexivity. Qed.
Lemma mtr_lift (M : R3 * R3 * R3) : mtr (N := XN) (liftM M) = liftM (mtr (N := RN) M).
Proof. destruct M as [[? ?] ?]. pt3; reflexivity. Qed.
Lemma mmul_lift (M P : R3 * R3 * R3) : mmul (N := XN) (liftM M) (liftM P) = liftM (mmul (N := RN) M P).
Proof. destruct M as [[? ?] ?], P as [[? ?] ?]. pt3; reflexivity. Qed.
Lemma mcols_lift (a b c : R3) : mcols (N := XN) (lift3 a) (lift3 b) (lift3 c) = liftM (mcols (N := RN) a b c).
Proof. pt3; reflexivity. Qed.
Lemma RotMat_lift (u : R3) th : RotMat_AxisAngle (N := XN) (lift3 u) (Fin th) = liftM (RotMat_AxisAngle (N := RN) u th).
Proof. pt3; reflexivity. Qed.
Lemma transform_lift (M : R3 * R3 * R3) (a : R3) : transform (N := XN) (liftM M) (lift3 a) = lift3 (mv M a).
Proof. destruct M as [[? ?] ?]. pt3; reflexivity. Qed.
Lemma transform_T_lift (M : R3 * R3 * R3) (a : R3) :
  transform_T (N := XN) (liftM M) (lift3 a) = lift3 (mv (mtr (N := RN) M) a).
Proof. destruct M as [[? ?] ?]. pt3; reflexivity. Qed.
Lemma lift3_inj (a b : R3) : lift3 a = lift3 b -> a = b.
Proof. pt3. unfold lift3, px, py, pz; cbn. intros H; injection H; intros; subst; reflexivity. Qed.

(** ** Well-formed turbines: what the constructor and the updates establish for an
    untilted shaft and finite arguments. *)
Record WF (t : turbine XN) (sh v hub U : R3) (R yaw : R) : Prop := {
  wf_frame : frame sh v;
  wf_R : t_R t = Fin R;
  wf_hub : t_rhub t = lift3 hub;
  wf_vert : t_vert t = lift3 v;
  wf_horz : t_horz t = lift3 sh;
  wf_shaft0 : t_shaft0 t = lift3 sh;
  wf_shaft : t_shaft t = lift3 (rotate v yaw sh);
  wf_c2wt : t_Tc2wt t = liftM (mcols (N := RN) (vprod v sh) v sh);
  wf_wt2g : t_Twt2g t = liftM (RotMat_AxisAngle (N := RN) v yaw);
  wf_yaw : t_yaw t = Fin yaw;
  wf_U0 : t_U0 t = lift3 U }.

Lemma horz_of_lift (sh v : R3) : frame sh v -> horz_of (N := XN) (lift3 sh) (lift3 v) = lift3 sh.
Proof.
  intros H. unfold horz_of. rewrite dot_lift.
  replace (inner sh v) with 0 by (symmetry; apply H).
  rewrite vsubs_lift, norm_lift.
  assert (E : sub3 sh (0, 0, 0) = sh) by (apply eq3; unf; ring).
  rewrite E, length3_unit by apply H. rewrite vdivs_lift by lra. f_equal. apply eq3; unf; field.
Qed.

Lemma WF_new (R : R) (hub sh v U : R3) Ct Lam name gr mo : frame sh v ->
  WF (new_turbine (N := XN) (Fin R) (lift3 hub) (lift3 sh) (lift3 v) (lift3 U) Ct Lam name gr mo)
     sh v hub U R 0.
Proof.
  intros HF. split; auto; try reflexivity.
  - cbn [new_turbine update_yaw_pos set_yawf t_horz]. apply horz_of_lift; auto.
  - cbn [new_turbine update_yaw_pos set_yawf t_shaft t_shaft0 t_vert].
    change (nZ XN 0) with (Fin 0). rewrite RotMat_lift, mvec_lift, RotMat_rodrigues. reflexivity.
  - cbn [new_turbine update_yaw_pos set_yawf t_Tc2wt].
    rewrite cross_lift, mcols_lift. reflexivity.
  - cbn [new_turbine update_yaw_pos set_yawf t_Twt2g t_vert]. change (nZ XN 0) with (Fin 0). apply RotMat_lift.
Qed.
Lemma WF_yaw t sh v hub U R yaw y : WF t sh v hub U R yaw -> WF (update_yaw_pos t (Fin y)) sh v hub U R y.
Proof.
  intros [H1 H2 H3 H4 H5 H6 H7 H8 H9 H10 H11]. split; auto.
  - cbn [update_yaw_pos set_yawf t_shaft]. rewrite H4, H6, RotMat_lift, mvec_lift, RotMat_rodrigues.
    reflexivity.
  - cbn [update_yaw_pos set_yawf t_Twt2g]. rewrite H4, RotMat_lift. reflexivity.
Qed.
Lemma WF_wind t sh v hub U R yaw U' : WF t sh v hub U R yaw -> WF (update_wind t (lift3 U')) sh v hub U' R yaw.
Proof. intros [H1 H2 H3 H4 H5 H6 H7 H8 H9 H10 H11]. split; auto. Qed.
Lemma WF_pos t sh v hub U R yaw h' : WF t sh v hub U R yaw -> WF (update_position t (lift3 h')) sh v h' U R yaw.
Proof. intros [H1 H2 H3 H4 H5 H6 H7 H8 H9 H10 H11]. split; auto. Qed.
Lemma WF_chi t sh v hub U R yaw c : WF t sh v hub U R yaw -> WF (set_chif t c) sh v hub U R yaw.
Proof. intros [H1 H2 H3 H4 H5 H6 H7 H8 H9 H10 H11]. split; auto. Qed.
Lemma WF_load minim r Ct G L n f t sh v hub U R yaw : WF t sh v hub U R yaw ->
  WF (fst (update_loading minim r Ct G L n f t)) sh v hub U R yaw.
Proof.
  intros [H1 H2 H3 H4 H5 H6 H7 H8 H9 H10 H11].
  pose proof (update_loading_fields minim r Ct G L n f t) as F. cbv zeta in F.
  destruct F as (F1 & F2 & F3 & F4 & F5 & F6 & F7 & F8 & F9 & F10 & F11 & F12 & F13 & F14 & F15).
  split; auto; congruence.
Qed.

Lemma WF_c2g t sh v hub U R yaw : WF t sh v hub U R yaw -> T_c2g t = liftM (c2g sh v yaw).
Proof.
  intros H. unfold T_c2g. rewrite (wf_wt2g _ _ _ _ _ _ _ H), (wf_c2wt _ _ _ _ _ _ _ H), mmul_lift.
  unfold c2g. rewrite cross_vprod. reflexivity.
Qed.

(** ** The wind angle and the skew angle *)
Lemma yaw_wind_X t sh v hub R yaw s th w :
  WF t sh v hub (wind sh v s th w) R yaw -> 0 < s -> - PI < th <= PI -> yaw_wind t = Fin th.
Proof.
  intros H Hs Hth.
  set (t' := mkT (N := RN) R hub sh sh v sh (hub,hub,hub) (hub,hub,hub) (hub,hub,hub) yaw
               (wind sh v s th w) None None None None None false None "" None "").
  pose proof (yaw_wind_spec t' sh v s th w eq_refl eq_refl (wf_frame _ _ _ _ _ _ _ H) Hs Hth eq_refl) as E.
  unfold yaw_wind in E. cbn [t_U0 t_vert t_horz t'] in E.
  unfold yaw_wind. rewrite (wf_U0 _ _ _ _ _ _ _ H), (wf_vert _ _ _ _ _ _ _ H), (wf_horz _ _ _ _ _ _ _ H).
  pose proof (wf_frame _ _ _ _ _ _ _ H) as HF.
  rewrite wind_horz in E by auto.
  assert (EH : vsub (N := XN) (lift3 (wind sh v s th w))
                 (vscale (dot (lift3 (wind sh v s th w)) (lift3 v)) (lift3 v))
               = lift3 (scal3 s (rotate v th sh))).
  { rewrite dot_lift, vscale_lift, vsub_lift. f_equal.
    pose proof (wind_horz sh v s th w HF) as W. rewrite vsub_sub3, vscale_scal3, dot_inner in W. exact W. }
  rewrite EH. rewrite norm_lift.
  assert (Hl : length3 (scal3 s (rotate v th sh)) = s).
  { rewrite length3_scal, length3_unit, Rabs_pos_eq; try lra.
    unfold unit3. rewrite rotate_inner by apply HF. apply HF. }
  rewrite Hl. rewrite vdivs_lift by lra.
  assert (He : scal3 (/ s) (scal3 s (rotate v th sh)) = rotate v th sh).
  { apply eq3; unfold scal3, px, py, pz; cbn [fst snd]; field; lra. }
  rewrite norm_length3, Hl, vdivs_scal3, He in E. rewrite He.
  rewrite cross_lift, !dot_lift. rewrite !dot_inner, cross_vprod in E.
  cbn [nsign nacos nmul nZ neqb XN RN xsign xmul] in *.
  assert (Hb : -1 <= inner (rotate v th sh) sh <= 1).
  { rewrite rotate_frame, inner_add_l, !inner_scal_l by auto.
    destruct (frame_perp_basis sh v HF) as (_ & B2 & _ & _). unfold perp in B2.
    rewrite (inner_sym (vprod v sh) sh), B2.
    replace (inner sh sh) with 1 by (symmetry; apply HF).
    pose proof (COS_bound th). lra. }
  rewrite xacos_fin by auto. cbn [xmul xeqb].
  destruct (Reqb _ 0); f_equal; exact E.
Qed.

Lemma chi_fresh_X t sh v hub R yaw s th w :
  WF t sh v hub (wind sh v s th w) R yaw -> 0 < s -> - PI < th <= PI ->
  chi_fresh t = Fin (th - yaw).
Proof.
  intros H Hs Hth. unfold chi_fresh.
  rewrite (yaw_wind_X _ _ _ _ _ _ _ _ _ H Hs Hth), (WF_c2g _ _ _ _ _ _ _ H).
  rewrite (wf_vert _ _ _ _ _ _ _ H), (wf_yaw _ _ _ _ _ _ _ H).
  rewrite mtr_lift, mvec_lift. unfold lift3; cbn [fst snd].
  pose proof (wf_frame _ _ _ _ _ _ _ H) as HF.
  assert (E : mv (mtr (N := RN) (c2g sh v yaw)) v = (0, 1, 0)).
  { transitivity (mv (mtr (N := RN) (c2g sh v yaw)) (mv (c2g sh v yaw) (0, 1, 0))).
    - f_equal. rewrite c2g_mv. unfold px, py, pz; cbn [fst snd].
      replace (add3 (add3 (scal3 0 (vprod v sh)) (scal3 1 v)) (scal3 0 sh)) with v.
      + symmetry; apply rotate_axis; apply HF.
      + apply eq3; unf; ring.
    - apply c2g_tr_l; auto. }
  rewrite E. unfold py; cbn [fst snd]. cbn [nsign nmul nsub XN xsign xsub xmul].
  f_equal. unfold Rsgn. destruct (Rlt_dec 0 1); lra.
Qed.

(** ** Local coordinates and the wake tube *)
Lemma local_lift t sh v hub U R yaw p : WF t sh v hub U R yaw ->
  local t (lift3 p) = lift3 (mv (mtr (N := RN) (c2g sh v yaw)) (sub3 p hub)).
Proof.
  intros H. unfold local. rewrite (WF_c2g _ _ _ _ _ _ _ H), (wf_hub _ _ _ _ _ _ _ H).
  rewrite !transform_T_lift, shift_lift. f_equal.
  destruct (mtr (N := RN) (c2g sh v yaw)) as [[[[a0 a1] a2] [[b0 b1] b2]] [[c0 c1] c2]]. pt3.
  unfold mv; cbn. unf. t3; ring.
Qed.
(** components along the rotated axes *)
Lemma local_comp sh v yaw d : frame sh v ->
  let q := mv (mtr (N := RN) (c2g sh v yaw)) d in
  px q = inner d (rotate v yaw (vprod v sh)) /\ py q = inner d v /\ pz q = inner d (rotate v yaw sh).
Proof.
  intros HF q. unfold q.
  assert (P : forall e, inner (mv (mtr (N := RN) (c2g sh v yaw)) d) e = inner d (mv (c2g sh v yaw) e))
    by (intros; apply mv_tr).
  assert (E1 : mv (c2g sh v yaw) (1,0,0) = rotate v yaw (vprod v sh)).
  { rewrite c2g_mv; unfold px, py, pz; cbn [fst snd]. f_equal. apply eq3; unf; ring. }
  assert (E2 : mv (c2g sh v yaw) (0,1,0) = v).
  { rewrite c2g_mv; unfold px, py, pz; cbn [fst snd].
    replace (add3 (add3 (scal3 0 (vprod v sh)) (scal3 1 v)) (scal3 0 sh)) with v
      by (apply eq3; unf; ring). apply rotate_axis; apply HF. }
  assert (E3 : mv (c2g sh v yaw) (0,0,1) = rotate v yaw sh).
  { rewrite c2g_mv; unfold px, py, pz; cbn [fst snd]. f_equal. apply eq3; unf; ring. }
  pose proof (P (1,0,0)) as P1. pose proof (P (0,1,0)) as P2. pose proof (P (0,0,1)) as P3.
  rewrite E1 in P1. rewrite E2 in P2. rewrite E3 in P3.
  rewrite <- P1, <- P2, <- P3. clear.
  generalize (mv (mtr (N := RN) (c2g sh v yaw)) d); intros q; pt3; unf. repeat split; ring.
Qed.
Definition axial (sh' d : R3) : R := inner d sh'.
Definition radial (sh' d : R3) : R := length3 (sub3 d (scal3 (inner d sh') sh')).
Lemma local_radial sh v yaw d : frame sh v ->
  let q := mv (mtr (N := RN) (c2g sh v yaw)) d in
  px q * px q + py q * py q =
  inner (sub3 d (scal3 (inner d (rotate v yaw sh)) (rotate v yaw sh)))
        (sub3 d (scal3 (inner d (rotate v yaw sh)) (rotate v yaw sh))).
Proof.
  intros HF q.
  pose proof (c2g_tr_inner sh v yaw d d HF) as HI. fold q in HI.
  destruct (local_comp sh v yaw d HF) as (_ & _ & E3). fold q in E3.
  assert (U1 : unit3 (rotate v yaw sh)).
  { unfold unit3. rewrite rotate_inner by apply HF. apply HF. }
  set (e := rotate v yaw sh) in *.
  transitivity (inner d d - inner d e * inner d e).
  - rewrite <- HI, <- E3. unfold inner at 1. ring.
  - transitivity (inner d d - 2 * inner d e * inner d e + inner d e * inner d e * inner e e).
    + unfold unit3 in U1. rewrite U1. ring.
    + clear. clearbody e. pt3. unf. ring.
Qed.
Lemma tube_spec t sh v hub U R yaw p : WF t sh v hub U R yaw ->
  in_wake_tube (t_R t) (local t (lift3 p)) = true <->
  (radial (rotate v yaw sh) (sub3 p hub) < R * (1001/1000) /\
   -60/100 * R <= axial (rotate v yaw sh) (sub3 p hub)).
Proof.
  intros H. rewrite (local_lift _ _ _ _ _ _ _ _ H), (wf_R _ _ _ _ _ _ _ H).
  pose proof (wf_frame _ _ _ _ _ _ _ H) as HF.
  destruct (local_comp sh v yaw (sub3 p hub) HF) as (_ & _ & E3).
  pose proof (local_radial sh v yaw (sub3 p hub) HF) as E12. cbv zeta in *.
  set (q := mv _ (sub3 p hub)) in *.
  unfold in_wake_tube, lift3. cbn [fst snd]. change (nsqrt XN) with xsqrt. unfold sq.
  cbn [nadd nmul XN xadd xmul]. rewrite E12, E3.
  rewrite xsqrt_fin by apply inner_pos.
  cbn [nlt nle nmul nQ XN xlt xle xmul]. rewrite andb_true_iff.
  rewrite Rltb_true, Rleb_true. unfold radial, axial, length3. reflexivity.
Qed.
Lemma transform_zero (M : R3 * R3 * R3) : transform (N := XN) (liftM M) (lift3 zero) = lift3 zero.
Proof.
  rewrite transform_lift. f_equal. destruct M as [[? ?] ?]. pt3. unfold mv, zero; cbn. t3; ring.
Qed.

(** ** Superposition of the vorticity components *)
Definition with_comp (bt bl br : bool) (o : opts XN) : opts XN :=
  {| o_only_ind := true; o_longi := bl; o_tang := bt; o_root := br;
     o_no_wake := o_no_wake o; o_ground := o_ground o; o_Model := o_Model o; o_far := o_far o |}.

Lemma xmul_fin_distr c a b : xmul (Fin c) (xadd a b) = xadd (xmul (Fin c) a) (xmul (Fin c) b).
Proof.
  destruct a, b; cbn [xadd xmul]; try reflexivity;
    try (f_equal; ring); unfold xinf_mul;
    destruct (Rltb_spec 0 c); try destruct (Rltb_spec c 0); try reflexivity.
Qed.
Lemma transform_add (M : R3 * R3 * R3) (a b : xpt) :
  transform (N := XN) (liftM M) (vadd a b) = vadd (transform (liftM M) a) (transform (liftM M) b).
Proof.
  destruct M as [[m0 m1] m2], a as [[a0 a1] a2], b as [[b0 b1] b2]. pt3.
  unfold transform, liftM, lift3, vadd; cbn [fst snd px py pz].
  change (nadd XN) with xadd. change (nmul XN) with xmul. unfold px, py, pz; cbn [fst snd].
  assert (A : forall x x' y y' z z' : X,
    xadd (xadd (xadd x x') (xadd y y')) (xadd z z') = xadd (xadd (xadd x y) z) (xadd (xadd x' y') z')).
  { intros. rewrite !xadd_assoc. f_equal. rewrite <- (xadd_assoc x' y), (xadd_comm x' y), xadd_assoc.
    f_equal. rewrite <- (xadd_assoc y' z), (xadd_comm y' z), xadd_assoc.
    rewrite <- (xadd_assoc x' z), (xadd_comm x' z), xadd_assoc. reflexivity. }
  rewrite !xmul_fin_distr, !A. reflexivity.
Qed.
Lemma transform_fadd (M : R3 * R3 * R3) (a b : list xpt) :
  map (transform (N := XN) (liftM M)) (fadd a b) =
  fadd (map (transform (liftM M)) a) (map (transform (liftM M)) b).
Proof.
  unfold fadd. rewrite map_map2, map2_map_l, map2_map_r. apply map2_ext. intros; apply transform_add.
Qed.
Lemma mask_fadd (m : xpt -> bool) (ps a b : list xpt) :
  map2 (fun p v => if m p then (nZ XN 0, nZ XN 0, nZ XN 0) else v) ps (fadd a b) =
  fadd (N := XN) (map2 (fun p v => if m p then (nZ XN 0, nZ XN 0, nZ XN 0) else v) ps a)
       (map2 (fun p v => if m p then (nZ XN 0, nZ XN 0, nZ XN 0) else v) ps b).
Proof.
  revert a b; induction ps as [|p ps IH]; intros [|x a] [|y b]; unfold fadd in *; cbn [map2]; auto.
  rewrite IH. destruct (m p); auto. f_equal. cbn. rewrite Rplus_0_r. reflexivity.
Qed.
Lemma finish_fadd t sh v hub U R yaw o pts a b :
  WF t sh v hub U R yaw -> o_only_ind o = true ->
  finish t o pts (fadd a b) = fadd (finish t o pts a) (finish t o pts b).
Proof.
  intros H Ho. unfold finish. rewrite Ho, (WF_c2g _ _ _ _ _ _ _ H).
  destruct (o_no_wake o).
  - rewrite mask_fadd. apply transform_fadd.
  - apply transform_fadd.
Qed.

Lemma concat_app_perm {A} (l m : list (list A)) :
  len l = len m ->
  Permutation (List.concat (map2 (fun a b => a ++ b) l m)) (List.concat l ++ List.concat m).
Proof.
  revert m; induction l as [|a l IH]; intros [|b m] H; simpl in *; try discriminate; auto.
  injection H; intros H'. specialize (IH m H'). rewrite <- !app_assoc.
  apply Permutation_app_head. rewrite IH. rewrite !app_assoc. apply Permutation_app_tail.
  apply Permutation_app_comm.
Qed.

Section Comp.
  Variables (t : turbine XN) (o : opts XN) (gs : list XN) (pts : list xpt).
  Lemma mapM_split {A B} (f g h : A -> result (list B)) (l : list A) v :
    (forall a w, In a l -> h a = Ok w -> exists x y, f a = Ok x /\ g a = Ok y /\ w = x ++ y) ->
    mapM h l = Ok v ->
    exists x y, mapM f l = Ok x /\ mapM g l = Ok y /\ v = map2 (fun a b => a ++ b) x y /\ len x = len y.
  Proof.
    revert v; induction l as [|a l IH]; intros v H Hv; simpl in *.
    - injection Hv; intros <-. exists [], []; auto.
    - destruct (h a) as [w|] eqn:E; [|discriminate]. simpl in Hv.
      destruct (mapM h l) as [vs|]; [|discriminate]. simpl in Hv. injection Hv; intros <-.
      destruct (H a w (or_introl eq_refl) E) as (x & y & -> & -> & ->).
      destruct (IH vs) as (xs & ys & -> & -> & -> & HL); auto.
      simpl. exists (x :: xs), (y :: ys). simpl. auto.
  Qed.

  Lemma terms_split bt bl br vs :
    terms t (with_comp bt bl br o) gs pts = Ok vs ->
    exists v1 v2 v3,
      terms t (with_comp bt false false o) gs pts = Ok v1 /\
      terms t (with_comp false bl false o) gs pts = Ok v2 /\
      terms t (with_comp false false br o) gs pts = Ok v3 /\
      Permutation vs (v3 ++ v1 ++ v2).
  Proof.
    unfold terms. cbn [o_ground o_Model with_comp].
    set (ground := match o_ground o with Some g => g | None => t_ground t end).
    set (Mo := match o_Model o with Some m => m | None => t_model t end).
    set (Yl := ylist _ _ _). set (chi := chi_now t). set (ptc := map _ pts). set (cyl := transform_T _ _).
    assert (R0 : forall b1 b2, root_terms t (with_comp b1 b2 false o) chi Yl = Ok []) by reflexivity.
    assert (R1 : forall b1 b2, root_terms t (with_comp b1 b2 br o) chi Yl
                 = root_terms t (with_comp false false br o) chi Yl) by reflexivity.
    rewrite (R0 bt false), (R0 false bl), (R1 bt bl). cbn [bind app].
    destruct (root_terms t (with_comp false false br o) chi Yl) as [a|]; [|discriminate]. cbn [bind].
    intros H.
    destruct (match gs with [g] => single_terms t (with_comp bt bl br o) Mo chi g Yl
              | _ => multi_terms t (with_comp bt bl br o) Mo chi gs ground cyl ptc end) as [b|] eqn:E;
      [|discriminate].
    cbn [bind] in H. injection H; intros <-. clear H.
    assert (G : exists b1 b2,
       (match gs with [g] => single_terms t (with_comp bt false false o) Mo chi g Yl
              | _ => multi_terms t (with_comp bt false false o) Mo chi gs ground cyl ptc end) = Ok b1 /\
       (match gs with [g] => single_terms t (with_comp false bl false o) Mo chi g Yl
              | _ => multi_terms t (with_comp false bl false o) Mo chi gs ground cyl ptc end) = Ok b2 /\
       (match gs with [g] => single_terms t (with_comp false false br o) Mo chi g Yl
              | _ => multi_terms t (with_comp false false br o) Mo chi gs ground cyl ptc end) = Ok [] /\
       Permutation b (b1 ++ b2)).
    { assert (MU : multi_terms t (with_comp bt bl br o) Mo chi gs ground cyl ptc = Ok b ->
        exists b1 b2, multi_terms t (with_comp bt false false o) Mo chi gs ground cyl ptc = Ok b1 /\
          multi_terms t (with_comp false bl false o) Mo chi gs ground cyl ptc = Ok b2 /\
          multi_terms t (with_comp false false br o) Mo chi gs ground cyl ptc = Ok [] /\
          Permutation b (b1 ++ b2)).
      { unfold multi_terms. destruct (String.eqb Mo "VC"); [|discriminate].
        destruct (t_r t) as [r|]; [|discriminate]. destruct (t_gl t) as [gl|]; [|discriminate].
        destruct (negb _); [discriminate|].
        destruct (match gl with Some gl => _ | None => _ end); [discriminate|].
        intros H; injection H; intros <-. cbn [with_comp o_tang o_longi].
        eexists _, _. repeat split. rewrite app_nil_r. reflexivity. }
      destruct gs as [|g [|g' gs']]; try (apply MU; exact E). clear MU.
      unfold single_terms in *.
      destruct (mapM (single1_terms t (with_comp bt bl br o) Mo chi g) Yl) as [l|] eqn:El; [|discriminate].
      cbn [bind] in E. injection E; intros <-. clear E.
      destruct (mapM_split (single1_terms t (with_comp bt false false o) Mo chi g)
                  (single1_terms t (with_comp false bl false o) Mo chi g)
                  (single1_terms t (with_comp bt bl br o) Mo chi g) Yl l) as (x & y & Ex & Ey & -> & HL); auto.
      { intros Y w _. unfold single1_terms. cbn [with_comp o_tang o_longi].
        destruct (if bt && negb (g =? _)%num then _ else _) as [a1|] eqn:Ea.
        2:{ cbn [bind]; discriminate. }
        cbn [bind andb]. 
        destruct (gl_active1 t bl) as [gl|]; [|discriminate]. cbn [bind].
        change (gl_active1 t false) with (@Ok (option XN) None). cbn [bind].
        destruct (match gl with Some gl => _ | None => _ end) as [b1|]; [|discriminate]. cbn [bind].
        intros H; injection H; intros <-. exists (a1 ++ []), b1. rewrite app_nil_r. auto. }
      rewrite Ex, Ey. cbn [bind]. exists (List.concat x), (List.concat y).
      repeat split; auto.
      - assert (Z : mapM (single1_terms t (with_comp false false br o) Mo chi g) Yl = Ok (map (fun _ => []) Yl)).
        { clear. clearbody Yl chi Mo. induction Yl as [|Y l IH]; [reflexivity|]. cbn [mapM map]. rewrite IH. reflexivity. }
        rewrite Z. cbn [bind]. f_equal. clear. induction Yl; simpl; auto.
      - apply concat_app_perm; auto. }
    destruct G as (b1 & b2 & E1 & E2 & E3 & P). rewrite E1, E2, E3. cbn [bind].
    exists b1, b2, (a ++ []). rewrite app_nil_r. repeat split.
    apply Permutation_app_head; auto.
  Qed.
End Comp.

Lemma components_superpose t sh v hub U R yaw o pts bt bl br u :
  WF t sh v hub U R yaw ->
  snd (compute_u t (with_comp bt bl br o) pts) = Ok u ->
  exists u1 u2 u3,
    snd (compute_u t (with_comp bt false false o) pts) = Ok u1 /\
    snd (compute_u t (with_comp false bl false o) pts) = Ok u2 /\
    snd (compute_u t (with_comp false false br o) pts) = Ok u3 /\
    u = fadd (fadd u1 u2) u3.
Proof.
  intros H. rewrite !compute_u_terms. destruct (t_gt t) as [gs|]; [|discriminate].
  destruct (terms t (with_comp bt bl br o) gs pts) as [vs|] eqn:E; [|discriminate].
  cbn [bind]. intros Hu; injection Hu; intros <-.
  destruct (terms_split t o gs pts bt bl br vs E) as (v1 & v2 & v3 & E1 & E2 & E3 & P).
  rewrite E1, E2, E3. cbn [bind]. eexists _, _, _. split; [reflexivity|split; [reflexivity|split; [reflexivity|]]].
  rewrite (fsumX_perm _ _ _ P).
  pose proof (terms_length _ _ _ _ _ E1) as L1. pose proof (terms_length _ _ _ _ _ E3) as L3.
  rewrite fsumX_app by auto. rewrite fsumX_app by auto.
  change (finish t (with_comp bt bl br o)) with (finish t (with_comp false false false o)).
  change (finish t (with_comp bt false false o)) with (finish t (with_comp false false false o)).
  change (finish t (with_comp false bl false o)) with (finish t (with_comp false false false o)).
  change (finish t (with_comp false false br o)) with (finish t (with_comp false false false o)).
  rewrite !(finish_fadd _ _ _ _ _ _ _ _ _ _ _ H) by reflexivity.
  rewrite faddX_comm. reflexivity.
Qed.
