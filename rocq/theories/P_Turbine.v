(** * Properties of WindTurbine: C09-C25, C27 *)
From Coq Require Import ZArith List Bool Arith Lia String Reals Lra Psatz.
From Verif Require Import Num NumR NumX Spec M_Cylinder M_Solver M_Turbine
  L_List L_Turbine L_State L_Farm L_Geom L_Angles L_TurbineX L_TurbineY L_Multi L_Built.
Import ListNotations.
Local Notation len := List.length.
Local Open Scope R_scope.

(** ** A concrete turbine: shaft x, vertical z, wind 10 m/s along x *)
Definition xR : R3 := (1, 0, 0).
Definition zR : R3 := (0, 0, 1).
Lemma ex_frame : frame xR zR.
Proof. unfold frame, unit3, perp, inner, xR, zR, px, py, pz; cbn. repeat split; ring. Qed.
Lemma ex_wind s : (s, 0, 0) = wind xR zR s 0 0.
Proof.
  unfold wind. rewrite rotate_0. apply eq3; unfold add3, scal3, xR, zR, px, py, pz; cbn; ring.
Qed.
Definition ex_new (mo : string) : turbine XN :=
  new_turbine (N := XN) (Fin 50) (lift3 (0,0,0)) (lift3 xR) (lift3 zR) (lift3 (wind xR zR 10 0 0))
    None None "" false mo.
(** the documented way to give the intensity directly: Ct and a callback *)
Definition ex_load : top XN :=
  TLoad None (Some [Fin (1/2) : XN]) None (Some (Fin 7 : XN)) None (Some (fun _ => Ok [Fin (-3) : XN])).
Definition ex_t minim (mo : string) : turbine XN := tstep minim (ex_new mo) ex_load.
Lemma ex_built minim mo : built minim (ex_t minim mo) xR zR (0,0,0) (wind xR zR 10 0 0) 50 0.
Proof. apply b_load. apply b_new. apply ex_frame. Qed.
Lemma ex_gt minim mo : t_gt (ex_t minim mo) = Some [Fin (-3) : XN] /\ t_gl (ex_t minim mo) = Some None /\
  t_model (ex_t minim mo) = mo /\ t_chi (ex_t minim mo) = None.
Proof. repeat split. Qed.
Lemma small_not_skewed : skewed (N := XN) (Fin 0) = false.
Proof. cbn. apply Rltb_false. rewrite Rabs_R0. lra. Qed.
Lemma neq3 : neqb XN (Fin (-3)) (nZ XN 0) = false.
Proof. cbn. apply Reqb_false. lra. Qed.

(** ** C09 *)
(** Full statement: after any history of public calls (other than the explicit
    override set_chi) the turbine answers like one in the same configuration that was
    never queried. *)
Definition C09_full (minim : (XN -> XN) -> XN -> XN -> XN) : Prop :=
  forall mo (ops : list (top XN)), Forall (fun op => is_set_chi op = false) ops ->
  answers_fresh (trun minim (ex_new mo) ops).
(** False of the code: the skew angle is computed once and kept. *)
Theorem C09_history_refuted : forall minim,
  let query := TCompute default_opts [lift3 (1,2,3)] in
  let t := trun minim (ex_new "VD") [ex_load; query; TYaw (Fin (PI/2) : XN)] in
  (exists u, snd (compute_u t default_opts [lift3 (1,2,3)]) = Ok u) /\
  (exists e, snd (compute_u (forget t) default_opts [lift3 (1,2,3)]) = Err e).
Proof.
  intros minim query t.
  set (o := default_opts (N := XN)) in *. set (pts := [lift3 (1,2,3)]) in *.
  pose proof (ex_built minim "VD") as HB.
  assert (C0 : chi_now (ex_t minim "VD") = Fin 0).
  { unfold chi_now. destruct (ex_gt minim "VD") as (_ & _ & _ & ->).
    rewrite (chi_fresh_X _ _ _ _ _ _ _ _ _ (built_WF _ _ _ _ _ _ _ _ HB)) by (pose proof PI_RGT_0; lra).
    f_equal; ring. }
  assert (Et : t = update_yaw_pos (set_chif (ex_t minim "VD") (Some (Fin 0))) (Fin (PI/2))).
  { unfold t, trun. cbn [fold_left]. change (tstep minim (ex_new "VD") ex_load) with (ex_t minim "VD").
    unfold query; cbn [tstep]. rewrite compute_u_fst, C0. reflexivity. }
  assert (K : forall t' : turbine XN, t_gt t' = Some [Fin (-3) : XN] -> t_gl t' = Some None -> t_model t' = "VD"%string ->
     is_err (snd (compute_u t' o pts)) = skewed (chi_now t')).
  { intros t' G1 G2 G3. rewrite raises_iff.
    - rewrite G1. unfold unsupported, model_of. rewrite G2, G3. cbn [o default_opts o_Model o_tang o_longi].
      rewrite neq3. cbn [negb andb]. unfold known_model. cbn [String.eqb Ascii.eqb Bool.eqb orb negb].
      destruct (skewed (chi_now t')); reflexivity.
    - discriminate.
    - intros gs Hgs. rewrite G1 in Hgs. injection Hgs; intros <-. exists None. repeat split; auto. }
  split.
  - specialize (K t). rewrite Et in K at 1 2 3. specialize (K eq_refl eq_refl eq_refl).
    assert (Ec : chi_now t = Fin 0) by (rewrite Et; reflexivity).
    rewrite Ec, small_not_skewed in K. destruct (snd (compute_u t o pts)); [eauto|discriminate].
  - specialize (K (forget t)). rewrite Et in K at 1 2 3. specialize (K eq_refl eq_refl eq_refl).
    assert (HB' : WF (forget t) xR zR (0,0,0) (wind xR zR 10 0 0) 50 (PI/2)).
    { apply WF_chi. rewrite Et. eapply WF_yaw. apply WF_chi. eapply built_WF; eauto. }
    assert (Ec : chi_now (forget t) = Fin (0 - PI/2)).
    { unfold chi_now. cbn [forget set_chif t_chi].
      apply (chi_fresh_X _ _ _ _ _ _ _ _ _ HB'); pose proof PI_RGT_0; lra. }
    rewrite Ec in K.
    assert (Sk : skewed (N := XN) (Fin (0 - PI/2)) = true).
    { cbn. apply Rltb_true. pose proof PI2_1. rewrite Rabs_left by lra. lra. }
    rewrite Sk in K. destruct (snd (compute_u (forget t) o pts)) as [|e]; [discriminate|exists e; reflexivity].
Qed.
Theorem C09_not_full : forall minim, ~ C09_full minim.
Proof.
  intros minim H.
  destruct (C09_history_refuted minim) as [[u Hu] [e He]].
  specialize (H "VD"%string
    [ex_load; TCompute default_opts [lift3 (1,2,3)]; TYaw (Fin (PI/2) : XN)]).
  unfold answers_fresh in H. rewrite H in Hu by (repeat constructor). rewrite He in Hu. discriminate.
Qed.
(** What holds, for every arithmetic and every history in which the turbine is not
    re-oriented after its first query. *)
Theorem C09_history_independence_partial :
  forall (N : Num) minim (R : N) hub sh v U Ct Lam name gr mo (ops : list (top N)),
  oriented_first ops = true ->
  answers_fresh (trun minim (new_turbine R hub sh v U Ct Lam name gr mo) ops).
Proof.
  intros. apply chi_current_fresh. apply oriented_first_current; auto.
Qed.
Example C09_nonvacuous :
  oriented_first [TYaw (Fin 1 : XN); ex_load; TCompute default_opts []; TPos (lift3 xR); ex_load] = true.
Proof. reflexivity. Qed.

(** ** C10 *)
(** Proved half: a query changes nothing but the cached skew angle, and a second call
    (with any options and points) answers as if the first had not been made. *)
Theorem C10_compute_u_query :
  forall (N : Num) (t : turbine N) o pts,
  let t' := fst (compute_u t o pts) in
  (t_R t' = t_R t /\ t_rhub t' = t_rhub t /\ t_shaft t' = t_shaft t /\ t_yaw t' = t_yaw t /\
   t_U0 t' = t_U0 t /\ t_vert t' = t_vert t /\ t_horz t' = t_horz t /\ t_shaft0 t' = t_shaft0 t /\
   t_r t' = t_r t /\ t_gt t' = t_gt t /\ t_gl t' = t_gl t /\ t_Gr t' = t_Gr t /\ t_Ct t' = t_Ct t /\
   t_Lambda t' = t_Lambda t /\ t_ground t' = t_ground t /\ t_model t' = t_model t /\
   t_name t' = t_name t) /\
  (forall o' pts', snd (compute_u t' o' pts') = snd (compute_u t o' pts')) /\
  fst (compute_u t' o pts) = t'.
Proof.
  intros N t o pts t'. split; [repeat split|]. split.
  - intros o' pts'. unfold t'. rewrite compute_u_idem. reflexivity.
  - unfold t'. rewrite compute_u_idem. reflexivity.
Qed.
(** Refuted half: a call that raises does leave a trace (the skew angle), visible
    afterwards: set the loading and re-orient, and the answer differs. *)
Lemma yaw_load_fields minim (t : turbine XN) (y : XN) :
  let t' := trun minim t [TYaw y; ex_load] in
  t_gt t' = Some [Fin (-3) : XN] /\ t_gl t' = Some None /\ t_model t' = t_model t /\ t_chi t' = t_chi t.
Proof. repeat split. Qed.
Lemma VD_err (t : turbine XN) o p :
  o_Model o = None -> o_longi o = false -> o_tang o = true ->
  t_gt t = Some [Fin (-3) : XN] -> t_gl t = Some None -> t_model t = "VD"%string ->
  is_err (snd (compute_u t o [p])) = skewed (chi_now t).
Proof.
  intros O1 O2 O3 G1 G2 G3. rewrite raises_iff.
  - rewrite G1. unfold unsupported, model_of. rewrite G2, G3, O1, O2, O3. 
    rewrite neq3. cbn [negb andb]. unfold known_model. cbn [String.eqb Ascii.eqb Bool.eqb orb negb].
    destruct (skewed (chi_now t)); reflexivity.
  - discriminate.
  - intros gs Hgs. rewrite G1 in Hgs. injection Hgs; intros <-. exists None. repeat split; auto.
Qed.
Theorem C84_failed_call_refuted : forall minim,
  let t := ex_new "VD" in
  let t1 := fst (compute_u t default_opts [lift3 (1,2,3)]) in
  (exists e, snd (compute_u t default_opts [lift3 (1,2,3)]) = Err e) /\ t1 <> t /\
  let later s := snd (compute_u (trun minim s [TYaw (Fin (PI/2) : XN); ex_load]) default_opts [lift3 (1,2,3)]) in
  later t1 <> later t.
Proof.
  intros minim t t1. split; [|split].
  - rewrite compute_u_terms. eexists; reflexivity.
  - unfold t1. rewrite compute_u_fst. intros E. apply (f_equal (@t_chi XN)) in E. discriminate E.
  - intros later.
    assert (HB : built minim t xR zR (0,0,0) (wind xR zR 10 0 0) 50 0) by (apply b_new; apply ex_frame).
    assert (M0 : t_model t = "VD"%string) by reflexivity.
    assert (X0 : t_chi t = None) by reflexivity.
    assert (E1 : t1 = set_chif t (Some (chi_now t))) by reflexivity.
    clearbody t1. clearbody t. subst t1.
    assert (C0 : chi_now t = Fin 0).
    { unfold chi_now. rewrite X0.
      rewrite (chi_fresh_X _ _ _ _ _ _ _ _ _ (built_WF _ _ _ _ _ _ _ _ HB)) by (pose proof PI_RGT_0; lra).
      f_equal; ring. }
    rewrite C0. set (t1 := set_chif t (Some (Fin 0))).
    assert (K1 : is_err (later t1) = false).
    { unfold later. destruct (yaw_load_fields minim t1 (Fin (PI/2))) as (A1 & A2 & A3 & A4).
      rewrite (VD_err _ default_opts _ eq_refl eq_refl eq_refl A1 A2 (eq_trans A3 M0)).
      unfold chi_now. rewrite A4. cbn [t1 set_chif t_chi]. apply small_not_skewed. }
    assert (K2 : is_err (later t) = true).
    { unfold later. destruct (yaw_load_fields minim t (Fin (PI/2))) as (A1 & A2 & A3 & A4).
      rewrite (VD_err _ default_opts _ eq_refl eq_refl eq_refl A1 A2 (eq_trans A3 M0)).
      assert (HB' : built minim (trun minim t [TYaw (Fin (PI/2) : XN); ex_load]) xR zR (0,0,0) (wind xR zR 10 0 0) 50 (PI/2)).
      { unfold trun. cbn [fold_left]. apply b_load. cbn [tstep]. eapply b_yaw; eauto. }
      unfold chi_now. rewrite A4, X0.
      rewrite (chi_fresh_X _ _ _ _ _ _ _ _ _ (built_WF _ _ _ _ _ _ _ _ HB')) by (pose proof PI_RGT_0; lra).
      cbn. apply Rltb_true. pose proof PI2_1. rewrite Rabs_left by lra. lra. }
    clearbody later. intros E. discriminate (eq_trans (eq_sym K1) (eq_trans (f_equal is_err E) K2)).
Qed.

(** ** C11 *)
Theorem C11_update_loading_atomic :
  forall (N : Num) minim r Ct Gamma Lambda nCyl callback (t : turbine N),
  let t' := fst (update_loading minim r Ct Gamma Lambda nCyl callback t) in
  (forall e, snd (update_loading minim r Ct Gamma Lambda nCyl callback t) = Err e -> t' = t) /\
  (t_R t' = t_R t /\ t_rhub t' = t_rhub t /\ t_shaft t' = t_shaft t /\ t_shaft0 t' = t_shaft0 t /\
   t_vert t' = t_vert t /\ t_horz t' = t_horz t /\ t_TF2g t' = t_TF2g t /\
   t_Tc2wt t' = t_Tc2wt t /\ t_Twt2g t' = t_Twt2g t /\ t_yaw t' = t_yaw t /\ t_U0 t' = t_U0 t /\
   t_ground t' = t_ground t /\ t_chi t' = t_chi t /\ t_model t' = t_model t /\ t_name t' = t_name t).
Proof.
  intros. split.
  - intros e He. eapply update_loading_atomic; eauto.
  - apply update_loading_fields.
Qed.
(** both outcomes occur *)
Example C11_nonvacuous : forall minim,
  snd (update_loading minim None (Some [Fin (1/2) : XN]) None (Some (Fin 7 : XN)) None (Some (fun _ => Ok [Fin (-3) : XN])) (ex_new "VC")) = Ok tt /\
  (exists e, snd (update_loading minim None None None (Some (Fin 7 : XN)) None None (ex_new "VC")) = Err e) /\
  (exists e, snd (update_loading minim None (Some [Fin (1/2) : XN]) None None None None (ex_new "VC")) = Err e).
Proof. intros. split; [reflexivity|]. split; eexists; reflexivity. Qed.

(** ** C12: refuted: the constructor's Ct is ignored, for every value of it *)
Definition C12_full (N : Num) : Prop :=
  forall (R : N) hub sh v U c Lam name gr mo,
  exists gs, t_gt (new_turbine R hub sh v U (Some c) Lam name gr mo) = Some gs.
Theorem C12_constructor_Ct_refuted :
  forall (N : Num) (R : N) hub sh v U c Lam name gr mo,
  new_turbine R hub sh v U (Some c) Lam name gr mo = new_turbine R hub sh v U None Lam name gr mo /\
  (forall o pts, exists e, snd (compute_u (new_turbine R hub sh v U (Some c) Lam name gr mo) o pts) = Err e) /\
  ~ C12_full N.
Proof.
  intros N Rr hub sh v U c Lam name gr mo. split; [reflexivity|]. split.
  - intros o pts. rewrite compute_u_terms. eexists; reflexivity.
  - intros H. destruct (H Rr hub sh v U c Lam name gr mo) as [gs E]. discriminate.
Qed.

(** ** C13 *)
(** No loading: compute_u raises, whatever the options. *)
Theorem C13_loading_required :
  forall (N : Num) (t : turbine N) o pts, t_gt t = None ->
  exists e, snd (compute_u t o pts) = Err e.
Proof. intros N t o pts H. rewrite compute_u_terms, H. eexists; reflexivity. Qed.
(** With a loading of consistent shape and at least one control point, it raises
    exactly when the model cannot handle the configuration ([unsupported], L_Multi:
    several cylinders or longitudinal vorticity with a model other than VC; skewed
    wake with a model other than VC; unknown model). *)
Theorem C13_raises_iff :
  forall (t : turbine XN) o pts gs, pts <> [] -> t_gt t = Some gs -> loading_consistent t gs ->
  ((exists e, snd (compute_u t o pts) = Err e) <-> unsupported t o gs = true) /\
  ((exists u, snd (compute_u t o pts) = Ok u) <-> unsupported t o gs = false).
Proof.
  intros t o pts gs Hp Hg Hc.
  assert (E : is_err (snd (compute_u t o pts)) = unsupported t o gs).
  { rewrite raises_iff, Hg; auto. intros gs' H. congruence. }
  rewrite <- E. destruct (snd (compute_u t o pts)); cbn [is_err]; split; split; intros; try discriminate; eauto;
    destruct H; discriminate.
Qed.
Example C13_nonvacuous : forall minim,
  loading_consistent (ex_t minim "VC") [Fin (-3) : XN] /\
  unsupported (ex_t minim "VC") default_opts [Fin (-3) : XN] = false /\
  unsupported (ex_t minim "XX") default_opts [Fin (-3) : XN] = true.
Proof.
  intros minim. split; [exists None; repeat split; auto|].
  unfold unsupported, model_of. cbn [default_opts o_Model o_tang o_longi].
  rewrite neq3. cbn [negb andb]. split; [destruct (skewed _)|destruct (skewed _)]; reflexivity.
Qed.

(** ** C14 *)
Theorem C14_only_ind :
  forall (N : Num) (t : turbine N) o pts,
  match snd (compute_u t (with_only_ind true o) pts), snd (compute_u t (with_only_ind false o) pts) with
  | Ok u, Ok v => v = map (fun w => vadd w (t_U0 t)) u
  | Err e, Err e' => e = e'
  | _, _ => False
  end.
Proof.
  intros. rewrite only_ind_spec. destruct (snd (compute_u t (with_only_ind true o) pts)); reflexivity.
Qed.
Example C14_nonvacuous : forall minim, exists u,
  snd (compute_u (ex_t minim "VC") (with_only_ind true default_opts) [lift3 (1,2,3)]) = Ok u.
Proof.
  intros minim. apply (C13_raises_iff _ _ _ [Fin (-3) : XN]); [discriminate|reflexivity|exists None; repeat split; auto|].
  unfold unsupported, model_of. cbn [with_only_ind default_opts o_Model o_tang o_longi].
  rewrite neq3. cbn [negb andb]. destruct (skewed _); reflexivity.
Qed.

(** ** C15 *)
Theorem C15_no_wake :
  forall minim (t : turbine XN) sh v hub U R yaw o (ps : list R3),
  built minim t sh v hub U R yaw ->
  match snd (compute_u t (with_no_wake false (with_only_ind true o)) (map lift3 ps)),
        snd (compute_u t (with_no_wake true (with_only_ind true o)) (map lift3 ps)) with
  | Ok u, Ok w => len w = len u /\
      forall k p, nth_error ps k = Some p ->
        let d := sub3 p hub in let e := rotate v yaw sh in
        ((length3 (sub3 d (scal3 (inner d e) e)) < R * (1001/1000) /\ -60/100 * R <= inner d e) ->
           nth_error w k = Some (lift3 zero)) /\
        (~ (length3 (sub3 d (scal3 (inner d e) e)) < R * (1001/1000) /\ -60/100 * R <= inner d e) ->
           nth_error w k = nth_error u k)
  | Err e, Err e' => e = e'
  | _, _ => False
  end.
Proof.
  intros minim t sh v hub U R yaw o ps HB. pose proof (built_WF _ _ _ _ _ _ _ _ HB) as HW.
  rewrite no_wake_spec.
  destruct (snd (compute_u t (with_no_wake false (with_only_ind true o)) (map lift3 ps))) as [u|] eqn:E;
    [|reflexivity]. cbn [bind].
  pose proof (compute_u_length _ _ _ _ E) as LU. rewrite map_length in LU.
  split.
  - rewrite map2_length, map_length, LU. lia.
  - intros k p Hp. set (d := sub3 p hub). set (e := rotate v yaw sh). rewrite map2_nth_error, nth_error_map, Hp. cbn [option_map].
    assert (Hk : (k < len u)%nat) by (rewrite LU; apply nth_error_Some; congruence).
    destruct (nth_error u k) as [x|] eqn:Ex; [|apply nth_error_None in Ex; lia].
    pose proof (tube_spec t sh v hub U R yaw p HW) as TS. unfold radial, axial in TS. fold d e in TS.
    destruct (in_wake_tube (t_R t) (local t (lift3 p))).
    + split; [|intros K; exfalso; apply K; apply TS; reflexivity]. intros _.
      f_equal. rewrite (WF_c2g _ _ _ _ _ _ _ HW). apply transform_zero.
    + split; [|reflexivity]. intros K. apply TS in K. discriminate.
Qed.
(** both kinds of points exist *)
Example C15_nonvacuous : forall minim,
  built minim (ex_t minim "VC") xR zR (0,0,0) (wind xR zR 10 0 0) 50 0 /\
  (let d := sub3 (10,0,0) (0,0,0) in let e := rotate zR 0 xR in
   length3 (sub3 d (scal3 (inner d e) e)) < 50 * (1001/1000) /\ -60/100 * 50 <= inner d e) /\
  (let d := sub3 (-100,0,0) (0,0,0) in let e := rotate zR 0 xR in ~ (-60/100 * 50 <= inner d e)).
Proof.
  intros minim. split; [apply ex_built|]. split; cbv zeta.
  - rewrite rotate_0. split.
    + replace (sub3 _ _) with (0,0,0) by (apply eq3; unfold sub3, scal3, inner, xR, px, py, pz; cbn; ring).
      unfold length3, inner, px, py, pz; cbn. rewrite !Rmult_0_l, !Rplus_0_l, sqrt_0. lra.
    + unfold inner, sub3, xR, px, py, pz; cbn. lra.
  - rewrite rotate_0. unfold inner, sub3, xR, px, py, pz; cbn. lra.
Qed.

(** ** C16 *)
Theorem C16_components_superpose :
  forall minim (t : turbine XN) sh v hub U R yaw o pts tang longi root u,
  built minim t sh v hub U R yaw ->
  snd (compute_u t (with_comp tang longi root o) pts) = Ok u ->
  exists u1 u2 u3,
    snd (compute_u t (with_comp tang false false o) pts) = Ok u1 /\
    snd (compute_u t (with_comp false longi false o) pts) = Ok u2 /\
    snd (compute_u t (with_comp false false root o) pts) = Ok u3 /\
    u = map2 vadd (map2 vadd u1 u2) u3.
Proof.
  intros. eapply components_superpose; eauto. eapply built_WF; eauto.
Qed.
Lemma off_terms t o gs pts : loading_consistent t gs -> model_of t o = "VC"%string \/ len gs = 1%nat ->
  terms (N := XN) t (with_comp false false false o) gs pts = Ok [].
Proof.
  intros (gl & H1 & H2 & H3) HM. unfold terms. cbn [with_comp root_terms o_root bind o_ground o_Model].
  set (Yl := ylist _ _ _). set (gr := match o_ground o with Some g => g | None => _ end).
  change (root_terms t (with_comp false false false o) (chi_now t) Yl) with (@Ok (list (list xpt)) []).
  cbn [bind app].
  change (match o_Model o with Some m => m | None => t_model t end) with (model_of t o).
  assert (S : forall g, single_terms t (with_comp false false false o) (model_of t o) (chi_now t) g Yl = Ok []).
  { intros g. unfold single_terms.
    assert (E : mapM (single1_terms t (with_comp false false false o) (model_of t o) (chi_now t) g) Yl
                = Ok (map (fun _ => []) Yl)).
    { induction Yl as [|Y l IH]; [reflexivity|]. cbn [mapM map]. rewrite IH. reflexivity. }
    rewrite E. cbn [bind]. f_equal. clear E; induction Yl; cbn; auto. }
  assert (Mm : len gs <> 1%nat -> multi_terms t (with_comp false false false o) (model_of t o) (chi_now t) gs gr
      (transform_T (T_c2g t) (t_rhub t)) (map (transform_T (T_c2g t)) pts) = Ok []).
  { intros Hn. destruct HM as [HM|HM]; [|congruence]. destruct H3 as [H3|(r & Hr & Lr)]; [congruence|].
    unfold multi_terms. rewrite HM, Hr, H1, Lr, Nat.eqb_refl. cbn [String.eqb Ascii.eqb Bool.eqb negb].
    destruct gl as [l|]; [rewrite H2, Nat.eqb_refl|]; reflexivity. }
  destruct gs as [|g [|g' gs]]; rewrite ?S, ?Mm by discriminate; reflexivity.
Qed.
(** all components off: exactly zero everywhere *)
Theorem C16_all_off_is_zero :
  forall minim (t : turbine XN) sh v hub U R yaw o pts gs,
  built minim t sh v hub U R yaw -> t_gt t = Some gs -> loading_consistent t gs ->
  (model_of t o = "VC"%string \/ len gs = 1%nat) ->
  snd (compute_u t (with_comp false false false o) pts) = Ok (map (fun _ => lift3 zero) pts).
Proof.
  intros minim t sh v hub U R yaw o pts gs HB Hg Hc HM. pose proof (built_WF _ _ _ _ _ _ _ _ HB) as HW.
  rewrite compute_u_terms, Hg, off_terms by auto. cbn [bind]. f_equal.
  unfold finish. cbn [with_comp o_no_wake o_only_ind fsum fold_left].
  assert (Z : forall l : list xpt, map (transform (T_c2g t)) (map (fun _ => (nZ XN 0, nZ XN 0, nZ XN 0)) l)
                = map (fun _ => lift3 zero) l).
  { intros l. rewrite map_map. apply map_ext. intros _. rewrite (WF_c2g _ _ _ _ _ _ _ HW). apply transform_zero. }
  destruct (o_no_wake o); [|apply Z].
  match goal with |- map _ ?l = _ => replace l with (map (fun _ : xpt => (nZ XN 0, nZ XN 0, nZ XN 0)) pts) end.
  - apply Z.
  - unfold fsum, fzero. cbn [fold_left]. rewrite !map_map, map2_map_l, map2_map_r, map2_diag. apply map_ext. intros p.
    destruct (in_wake_tube _ _); reflexivity.
Qed.
Example C16_nonvacuous : forall minim, exists u,
  built minim (ex_t minim "VC") xR zR (0,0,0) (wind xR zR 10 0 0) 50 0 /\
  snd (compute_u (ex_t minim "VC") (with_comp true true true default_opts) [lift3 (1,2,3)]) = Ok u.
Proof.
  intros minim.
  destruct (proj2 (C13_raises_iff (ex_t minim "VC") (with_comp true true true default_opts) [lift3 (1,2,3)] [Fin (-3) : XN]
    ltac:(discriminate) eq_refl ltac:(exists None; repeat split; auto))) as [_ H].
  destruct H as [u Hu].
  - unfold unsupported, model_of. cbn [with_comp default_opts o_Model o_tang o_longi].
    rewrite neq3. cbn [negb andb]. destruct (skewed _); reflexivity.
  - exists u. split; auto. apply ex_built.
Qed.

(** ** C17 *)
Theorem C17_translation_invariance :
  forall minim (t : turbine XN) sh v hub U R yaw o d (ps : list R3),
  built minim t sh v hub U R yaw -> ground_on t o = false ->
  snd (compute_u (update_position t (lift3 (add3 hub d))) o (map (fun p => lift3 (add3 p d)) ps)) =
  snd (compute_u t o (map lift3 ps)).
Proof. intros. eapply translation_X; eauto. eapply built_WF; eauto. Qed.
Example C17_nonvacuous : forall minim,
  built minim (ex_t minim "VC") xR zR (0,0,0) (wind xR zR 10 0 0) 50 0 /\
  ground_on (ex_t minim "VC") default_opts = false.
Proof. intros; split; [apply ex_built|reflexivity]. Qed.

(** ** C18 *)
(** Turning a never-queried turbine and its wind (angles kept in the principal range)
    turns the field; this also covers skewed configurations and the free stream. *)
Theorem C18_yaw_equivariance_partial :
  forall minim (t : turbine XN) sh v hub R yaw s th w a o (ps : list R3),
  built minim t sh v hub (wind sh v s th w) R yaw ->
  ground_on t o = false -> 0 < s -> t_chi t = None ->
  - PI < th <= PI -> - PI < th + a <= PI ->
  let t' := update_wind (update_yaw_pos t (Fin (yaw + a))) (lift3 (rotate v a (wind sh v s th w))) in
  let ps' := map (fun p => add3 hub (rotate v a (sub3 p hub))) ps in
  match snd (compute_u t o (map lift3 ps)), snd (compute_u t' o (map lift3 ps')) with
  | Err e, Err e' => e = e'
  | Ok u, Ok u' =>
      len u' = len u /\
      forall i q, nth_error u i = Some (lift3 q) -> nth_error u' i = Some (lift3 (rotate v a q))
  | _, _ => False
  end.
Proof. intros. eapply rotation_X; eauto. eapply built_WF; eauto. Qed.
Example C18_nonvacuous : forall minim,
  built minim (ex_t minim "VC") xR zR (0,0,0) (wind xR zR 10 0 0) 50 0 /\
  ground_on (ex_t minim "VC") default_opts = false /\ t_chi (ex_t minim "VC") = None /\ - PI < 0 + 1 <= PI.
Proof. intros. pose proof PI2_1. repeat split; try lra. apply ex_built. Qed.
(** Missing: yaw angles outside (-pi,pi].  There the claim is false: yaw 3*pi/2 with
    the wind turned alike (an unskewed turbine) is treated as skewed, and the model
    that answers at yaw 0 raises. *)
Theorem C18_beyond_pi_refuted : forall minim,
  let t := ex_t minim "VD" in
  let a := 3 * PI / 2 in
  let t' := update_wind (update_yaw_pos t (Fin (0 + a))) (lift3 (rotate zR a (wind xR zR 10 0 0))) in
  (exists u, snd (compute_u t default_opts [lift3 (1,2,3)]) = Ok u) /\
  (exists e, snd (compute_u t' default_opts [lift3 (rotate zR a (1,2,3))]) = Err e).
Proof.
  intros minim t a t'. pose proof PI_RGT_0 as HP. pose proof PI2_1 as HP1.
  assert (K : forall (t0 : turbine XN) p, t_gt t0 = Some [Fin (-3) : XN] -> t_gl t0 = Some None -> t_model t0 = "VD"%string ->
     is_err (snd (compute_u t0 default_opts [p])) = skewed (chi_now t0)).
  { intros t0 p G1 G2 G3. rewrite raises_iff.
    - rewrite G1. unfold unsupported, model_of. rewrite G2, G3. cbn [default_opts o_Model o_tang o_longi].
      rewrite neq3. cbn [negb andb]. unfold known_model. cbn [String.eqb Ascii.eqb Bool.eqb orb negb].
      destruct (skewed (chi_now t0)); reflexivity.
    - discriminate.
    - intros gs Hgs. rewrite G1 in Hgs. injection Hgs; intros <-. exists None. repeat split; auto. }
  pose proof (ex_built minim "VD") as HB. fold t in HB.
  assert (HB' : built minim t' xR zR (0,0,0) (wind xR zR 10 (- (PI/2)) 0) 50 (0 + a)).
  { unfold t'.
    replace (rotate zR a (wind xR zR 10 0 0)) with (wind xR zR 10 (- (PI/2)) 0).
    - eapply b_wind. eapply b_yaw. eauto.
    - rewrite rotate_wind by apply ex_frame. unfold wind. do 2 f_equal.
      rewrite <- (rotate_2PI zR xR (-(PI/2))). f_equal. unfold a; field. }
  split.
  - assert (Ec : chi_now t = Fin 0).
    { unfold chi_now. change (t_chi t) with (@None XN).
      rewrite (chi_fresh_X _ _ _ _ _ _ _ _ _ (built_WF _ _ _ _ _ _ _ _ HB)) by lra. f_equal; ring. }
    pose proof (K t (lift3 (1,2,3)) eq_refl eq_refl eq_refl) as E. rewrite Ec, small_not_skewed in E.
    destruct (snd (compute_u t default_opts [lift3 (1,2,3)])); [eauto|discriminate].
  - assert (Ec : chi_now t' = Fin (- (PI/2) - (0 + a))).
    { unfold chi_now. change (t_chi t') with (@None XN).
      rewrite (chi_fresh_X _ _ _ _ _ _ _ _ _ (built_WF _ _ _ _ _ _ _ _ HB')) by lra. reflexivity. }
    pose proof (K t' (lift3 (rotate zR a (1,2,3))) eq_refl eq_refl eq_refl) as E. rewrite Ec in E.
    assert (Sk : skewed (N := XN) (Fin (- (PI/2) - (0 + a))) = true).
    { cbn. apply Rltb_true. rewrite Rabs_left; unfold a; lra. }
    rewrite Sk in E. destruct (snd (compute_u t' default_opts [lift3 (rotate zR a (1,2,3))])) as [|e]; [discriminate|exists e; reflexivity].
Qed.

(** ** C19 *)
Theorem C19_rotation_matrix :
  forall (u : R3), unit3 u -> forall th : R,
  let M := RotMat_AxisAngle (N := RN) u th in
  let app (M : R3 * R3 * R3) (v : R3) : R3 := mvec (N := RN) M v in
  (forall a b, inner (app M a) (app M b) = inner a b) /\                          (* orthogonal *)
  (forall a b c, triple (app M a) (app M b) (app M c) = triple a b c) /\          (* det = 1 *)
  app M u = u /\                                                                  (* fixes the axis *)
  (forall v, perp u v -> app M v = add3 (scal3 (cos th) v) (scal3 (sin th) (vprod u v))) /\
  (forall ph v, app M (app (RotMat_AxisAngle (N := RN) u ph) v) =
                app (RotMat_AxisAngle (N := RN) u (th + ph)) v) /\
  (forall v, app (RotMat_AxisAngle (N := RN) u 0) v = v).
Proof.
  intros u Hu th M app. unfold app, M. change (mvec (N := RN)) with mv.
  repeat split; intros; rewrite ?RotMat_rodrigues.
  - apply rotate_inner; auto.
  - apply RotMat_triple; auto.
  - apply rotate_axis; auto.
  - apply rotate_perp; auto.
  - apply rotate_plus; auto.
  - apply rotate_0.
Qed.
Example C19_nonvacuous : unit3 (3/5, 0, 4/5).
Proof. unfold unit3, inner, px, py, pz; cbn. field. Qed.

(** ** C20 *)
Theorem C20_transform_inverse :
  forall minim (t : turbine XN) sh v hub U R yaw (a b : R3),
  built minim t sh v hub U R yaw ->
  exists Ma Mb Ta Tb : R3,
    transform (T_c2g t) (lift3 a) = lift3 Ma /\ transform (T_c2g t) (lift3 b) = lift3 Mb /\
    transform_T (T_c2g t) (lift3 a) = lift3 Ta /\ transform_T (T_c2g t) (lift3 b) = lift3 Tb /\
    transform_T (T_c2g t) (lift3 Ma) = lift3 a /\ transform (T_c2g t) (lift3 Ta) = lift3 a /\
    inner Ma Mb = inner a b /\ inner Ta Tb = inner a b /\
    length3 Ma = length3 a /\ length3 Ta = length3 a.
Proof.
  intros minim t sh v hub U R yaw a b HB. pose proof (built_WF _ _ _ _ _ _ _ _ HB) as HW.
  pose proof (wf_frame _ _ _ _ _ _ _ HW) as HF. rewrite (WF_c2g _ _ _ _ _ _ _ HW).
  exists (mv (c2g sh v yaw) a), (mv (c2g sh v yaw) b), (mv (mtr (N := RN) (c2g sh v yaw)) a),
    (mv (mtr (N := RN) (c2g sh v yaw)) b).
  rewrite !transform_lift, !transform_T_lift. repeat split.
  - rewrite c2g_tr_l; auto.
  - rewrite c2g_tr_r; auto.
  - apply c2g_inner; auto.
  - apply c2g_tr_inner; auto.
  - unfold length3. rewrite c2g_inner; auto.
  - unfold length3. rewrite c2g_tr_inner; auto.
Qed.
Example C20_nonvacuous : forall minim y,
  built minim (update_yaw_pos (ex_t minim "VC") (Fin y)) xR zR (0,0,0) (wind xR zR 10 0 0) 50 y.
Proof. intros. eapply b_yaw. apply ex_built. Qed.

(** ** C21 *)
Theorem C21_orth_vect :
  (forall u : R3, u <> zero -> exists o : R3, orth_vect (N := XN) (lift3 u) = Ok (lift3 o) /\ unit3 o /\ perp o u) /\
  (exists e, orth_vect (N := XN) (lift3 zero) = Err e).
Proof.
  split.
  - intros u Hu. apply orth_vect_ok. intros E. apply Hu. clear Hu. revert E. pt3. unf. unfold zero. intros E.
    assert (r = 0 /\ r1 = 0 /\ r0 = 0) by (repeat split; nra). destruct H as (-> & -> & ->). reflexivity.
  - eexists. apply orth_vect_zero.
Qed.

(** ** C22 *)
Theorem C22_rotor_disk :
  forall minim (t : turbine XN) sh v hub U R yaw nP,
  built minim t sh v hub U R yaw -> 0 <= R ->
  exists ps : list R3, rotor_disk_points t nP = Ok (map lift3 ps) /\ len ps = nP /\
    (forall p, In p ps -> length3 (sub3 p hub) = R /\ perp (sub3 p hub) (rotate v yaw sh)) /\
    (forall p q, nth_error ps 0 = Some p -> nth_error ps (nP - 1) = Some q -> p = q).
Proof. intros. eapply rotor_disk_X; eauto. eapply built_WF; eauto. Qed.
Example C22_nonvacuous : forall minim,
  built minim (ex_t minim "VC") xR zR (0,0,0) (wind xR zR 10 0 0) 50 0 /\ 0 <= 50.
Proof. intros; split; [apply ex_built|lra]. Qed.

(** also for a tilted shaft: any turbine whose shaft is a unit vector *)
Theorem C22_any_shaft :
  forall (t : turbine XN) (e hub : R3) R nP,
  t_shaft t = lift3 e -> t_rhub t = lift3 hub -> t_R t = Fin R -> unit3 e -> 0 <= R ->
  exists ps : list R3, rotor_disk_points t nP = Ok (map lift3 ps) /\ len ps = nP /\
    (forall p, In p ps -> length3 (sub3 p hub) = R /\ perp (sub3 p hub) e) /\
    (forall p q, nth_error ps 0 = Some p -> nth_error ps (nP - 1) = Some q -> p = q).
Proof. intros. apply rotor_disk_any; auto. Qed.

Example C22_tilted : (* a shaft tilted by acos(4/5), yawed by any angle *)
  forall yaw, exists e,
  let t := update_yaw_pos (new_turbine (N := XN) (Fin 50) (lift3 (0,0,90)) (lift3 (4/5,0,3/5)) (lift3 zR) (lift3 (10,0,0)) None None "" false "VC") (Fin yaw) in
  t_shaft t = lift3 e /\ t_rhub t = lift3 (0,0,90) /\ t_R t = Fin 50 /\ unit3 e /\ ~ perp e zR.
Proof.
  intros yaw. exists (rotate zR yaw (4/5,0,3/5)). cbv zeta. split; [|split; [|split; [|split]]].
  - change (mvec (N := XN) (RotMat_AxisAngle (N := XN) (lift3 zR) (Fin yaw)) (lift3 (4/5, 0, 3/5)) = lift3 (rotate zR yaw (4/5, 0, 3/5))).
    rewrite RotMat_lift, mvec_lift, RotMat_rodrigues. reflexivity.
  - reflexivity.
  - reflexivity.
  - unfold unit3. rewrite rotate_inner; [unfold inner, px, py, pz; cbn; lra|unfold unit3, inner, zR, px, py, pz; cbn; lra].
  - unfold perp, rotate, inner, vprod, add3, scal3, zR, px, py, pz; cbn. lra.
Qed.

(** ** C23 *)
Definition C23_full : Prop :=
  forall sh v : R3, unit3 sh -> unit3 v -> vprod sh v <> zero ->
  exists h, horz_of (N := XN) (lift3 sh) (lift3 v) = lift3 h /\ unit3 h /\ perp h v /\ triple h sh v = 0.
(** holds without tilt *)
Theorem C23_horizontal_partial :
  forall sh v : R3, frame sh v ->
  exists h, horz_of (N := XN) (lift3 sh) (lift3 v) = lift3 h /\ unit3 h /\ perp h v /\ triple h sh v = 0.
Proof.
  intros sh v HF. exists sh. split; [apply horz_of_lift; auto|]. split; [apply HF|]. split; [apply HF|].
  clear HF. pt3. unfold triple. unf. ring.
Qed.
(** fails for a tilted shaft: v_horz0 is shaft - dot(shaft,vert) (scalar), without "*vert" *)
Theorem C23_tilt_refuted : ~ C23_full.
Proof.
  intros H. destruct (H (4/5, 0, 3/5) (0, 0, 1)) as (h & E & _ & _ & Th).
  - unfold unit3, inner, px, py, pz; cbn. field.
  - unfold unit3, inner, px, py, pz; cbn. field.
  - unfold vprod, zero, px, py, pz; cbn. intros K. injection K; intros. lra.
  - unfold horz_of in E. rewrite dot_lift, vsubs_lift, norm_lift in E.
    set (d := sub3 _ _) in E.
    assert (L : 0 < length3 d).
    { unfold length3. apply sqrt_lt_R0. unfold d, inner, sub3, px, py, pz; cbn. lra. }
    rewrite vdivs_lift in E by lra. apply lift3_inj in E. subst h.
    set (l := length3 d) in *. clearbody l.
    assert (K : triple (scal3 (/ l) d) (4/5, 0, 3/5) (0, 0, 1) = / l * (12/25)).
    { unfold d, triple, vprod, inner, scal3, sub3, px, py, pz; cbn. field. lra. }
    rewrite K in Th. pose proof (Rinv_0_lt_compat l L). nra.
Qed.

(** ** C24 *)
Theorem C24_yaw_wind :
  forall minim (t : turbine XN) sh v hub R yaw s th w,
  built minim t sh v hub (wind sh v s th w) R yaw -> 0 < s -> - PI < th <= PI ->
  yaw_wind t = Fin th.
Proof. intros. eapply yaw_wind_X; eauto. eapply built_WF; eauto. Qed.
Example C24_nonvacuous : forall minim,
  built minim (update_wind (ex_t minim "VC") (lift3 (wind xR zR 8 2 1))) xR zR (0,0,0) (wind xR zR 8 2 1) 50 0 /\
  0 < 8 /\ - PI < 2 <= PI.
Proof.
  intros. split; [eapply b_wind; apply ex_built|]. pose proof PI2_1. lra.
Qed.

(** ** C25 *)
(** Full statement: the yaw relative to the wind, reduced to (-pi,pi]. *)
Definition C25_full (minim : (XN -> XN) -> XN -> XN -> XN) : Prop :=
  forall (t : turbine XN) sh v hub R s th d (k : Z),
  built minim t sh v hub (wind sh v s th 0) R (th + d + 2 * IZR k * PI) -> 0 < s -> - PI < d <= PI ->
  yaw_error t = Fin d.
(** everything but a rotor turned exactly backwards *)
Theorem C25_yaw_error_partial :
  forall minim (t : turbine XN) sh v hub R s th d (k : Z),
  built minim t sh v hub (wind sh v s th 0) R (th + d + 2 * IZR k * PI) -> 0 < s -> - PI < d < PI ->
  yaw_error t = Fin d.
Proof.
  intros minim t sh v hub R s th d k HB Hs Hd. pose proof (built_WF _ _ _ _ _ _ _ _ HB) as HW.
  rewrite (yaw_error_X _ _ _ _ _ _ _ _ HW Hs), rotate_2kPI.
  destruct (yaw_error_inner sh v th d (wf_frame _ _ _ _ _ _ _ HW)) as [-> ->].
  rewrite sgn_acos; auto.
Qed.
Example C25_nonvacuous : forall minim,
  built minim (update_yaw_pos (ex_t minim "VC") (Fin (0 + (-1) + 2 * IZR 3 * PI))) xR zR (0,0,0) (wind xR zR 10 0 0) 50
    (0 + (-1) + 2 * IZR 3 * PI) /\ 0 < 10 /\ - PI < -1 < PI.
Proof. intros. split; [eapply b_yaw; apply ex_built|]. pose proof PI2_1. lra. Qed.
(** backwards: sign(0)*pi = 0, reported as aligned *)
Theorem C25_backwards_refuted : forall minim,
  yaw_error (update_yaw_pos (ex_t minim "VC") (Fin (0 + PI))) = Fin 0 /\ ~ C25_full minim.
Proof.
  intros minim.
  assert (HB : built minim (update_yaw_pos (ex_t minim "VC") (Fin (0 + PI))) xR zR (0,0,0) (wind xR zR 10 0 0) 50 (0 + PI)).
  { eapply b_yaw. apply ex_built. }
  assert (E : yaw_error (update_yaw_pos (ex_t minim "VC") (Fin (0 + PI))) = Fin 0).
  { rewrite (yaw_error_X _ _ _ _ _ _ _ _ (built_WF _ _ _ _ _ _ _ _ HB)) by lra.
    destruct (yaw_error_inner xR zR 0 PI ex_frame) as [_ ->]. rewrite sin_PI.
    unfold Rsgn. destruct (Rlt_dec 0 0); [lra|]. rewrite Rmult_0_l. reflexivity. }
  split; auto. intros H.
  specialize (H (update_yaw_pos (ex_t minim "VC") (Fin (0 + PI))) xR zR (0,0,0) 50 10 0 PI 0%Z).
  rewrite E in H. pose proof PI_RGT_0.
  assert (K : Fin 0 = Fin PI).
  { apply H; [|lra|lra]. replace (0 + PI + 2 * 0 * PI) with (0 + PI) by ring. exact HB. }
  injection K. lra.
Qed.

(** ** C27 (superposition half) *)
(** The field of a turbine with n (<> 1) cylinders (intensity, radius, longitudinal
    intensity) is the pointwise sum of the fields of n turbines, each the same turbine
    with one cylinder only ([as_single], L_Multi).  Missing: which radii (see
    C86_radii_refuted in P_Radii); root vortex, ground together with longitudinal. *)
Theorem C27_multi_superposition :
  forall minim (t : turbine XN) sh v hub U Rt yaw o pts (cs : list (R * R * R)) (haslongi : bool),
  built minim t sh v hub U Rt yaw -> len cs <> 1%nat ->
  t_gt t = Some (map (fun c => Fin (fst (fst c)) : XN) cs) ->
  t_r t = Some (map (fun c => Fin (snd (fst c)) : XN) cs) ->
  t_gl t = Some (if haslongi then Some (map (fun c => Fin (snd c) : XN) cs) else None) ->
  model_of t o = "VC"%string -> o_root o = false -> o_no_wake o = false -> o_only_ind o = true ->
  ground_on t o = false \/ o_longi o = false ->
  exists us,
    Forall2 (fun c u => snd (compute_u (as_single t (Fin (snd (fst c))) (Fin (fst (fst c)))
               (if haslongi then Some (Fin (snd c)) else None)) o pts) = Ok u) cs us /\
    snd (compute_u t o pts) = Ok (fold_left (map2 vadd) us (map (fun _ => lift3 zero) pts)).
Proof.
  intros minim t sh v hub U Rt yaw o pts cs haslongi HB Hn Hgt Hr Hgl HM Hroot Hnw Hind Hgrd.
  exact (multi_superpose t o cs haslongi pts Hgt Hr Hgl Hn HM Hroot Hnw Hind Hgrd sh v hub U Rt yaw (built_WF _ _ _ _ _ _ _ _ HB)).
Qed.
Example C27_nonvacuous : forall minim,
  let t := tstep minim (ex_new "VC") (TLoad (Some [Fin 20 : XN; Fin 40 : XN]) (Some [Fin (1/2) : XN; Fin (1/3) : XN]) None
             (Some (Fin 7 : XN)) None (Some (fun _ => Ok [Fin (-3) : XN; Fin (-2) : XN]))) in
  let cs := [(-3, 20, 0); (-2, 40, 0)] in
  built minim t xR zR (0,0,0) (wind xR zR 10 0 0) 50 0 /\
  t_gt t = Some (map (fun c => Fin (fst (fst c)) : XN) cs) /\
  t_r t = Some (map (fun c => Fin (snd (fst c)) : XN) cs) /\ t_gl t = Some None /\
  model_of t (with_only_ind true default_opts) = "VC"%string.
Proof. intros minim t cs. split; [apply b_load; apply b_new; apply ex_frame|]. repeat split. Qed.
