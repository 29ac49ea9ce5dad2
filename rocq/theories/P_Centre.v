(** * C105: the velocity at the rotor, through the public interface *)
From Coquelicot Require Import Coquelicot.
From Coq Require Import ZArith List Bool Arith Lia String Reals Lra Psatz.
From Verif Require Import Num NumR NumX Spec M_Elliptic M_Line M_Doublet M_Misc M_Cylinder M_Skewed
  M_Solver M_Turbine L_List L_Calc L_X L_Turbine L_State L_Farm L_Geom L_Angles L_TurbineX L_TurbineY L_Multi L_Built P_Turbine P_Line P_Skewed P_Cylinder2 P_Grid.
Import ListNotations.
Local Notation len := List.length.
Local Open Scope R_scope.

Lemma add3_z_r a : add3 a zero = a.
Proof. destruct a as [[x y] z]. unfold add3, zero, px, py, pz. cbn [fst snd]. rewrite !Rplus_0_r. reflexivity. Qed.
Lemma add3_z_l a : add3 zero a = a.
Proof. destruct a as [[x y] z]. unfold add3, zero, px, py, pz. cbn [fst snd]. rewrite !Rplus_0_l. reflexivity. Qed.
(** ** reading one entry of the answer *)
Lemma finish_at t sh v hub U R yaw o pts (u : list xpt) i a : WF t sh v hub U R yaw -> o_no_wake o = false ->
  nth_error u i = Some (lift3 a) ->
  nth_error (finish t o pts u) i = Some (lift3 (add3 (mv (c2g sh v yaw) a) (if o_only_ind o then zero else U))).
Proof.
  intros H Ho Hi. unfold finish. rewrite Ho, (WF_c2g _ _ _ _ _ _ _ H). destruct (o_only_ind o).
  - rewrite nth_error_map, Hi. cbn [option_map]. rewrite transform_lift, add3_z_r. reflexivity.
  - rewrite nth_error_map, nth_error_map, Hi. cbn [option_map]. rewrite transform_lift, (wf_U0 _ _ _ _ _ _ _ H), vadd_lift. reflexivity.
Qed.
Lemma fzero_at (pts : list xpt) i : (i < len pts)%nat -> nth_error (fzero pts) i = Some (lift3 zero).
Proof. intros H. unfold fzero. rewrite nth_error_map. destruct (nth_error pts i) eqn:E; [reflexivity|]. apply nth_error_None in E. lia. Qed.
Lemma fadd_at (a b : list xpt) i x y : nth_error a i = Some (lift3 x) -> nth_error b i = Some (lift3 y) -> nth_error (fadd a b) i = Some (lift3 (add3 x y)).
Proof. intros A B. unfold fadd. rewrite map2_nth_error, A, B, vadd_lift. reflexivity. Qed.
Lemma shaft_comp sh v yaw a : frame sh v -> inner (mv (c2g sh v yaw) a) (rotate v yaw sh) = pz a.
Proof.
  intros HF. assert (E : mv (c2g sh v yaw) (0, 0, 1) = rotate v yaw sh).
  { rewrite c2g_mv; unfold px, py, pz; cbn [fst snd]. f_equal. apply eq3; unf; ring. }
  rewrite <- E, c2g_inner by auto. clear. pt3. unf. ring.
Qed.
Lemma axis_image sh v yaw k : frame sh v -> mv (c2g sh v yaw) (0, 0, k) = scal3 k (rotate v yaw sh).
Proof.
  intros HF. rewrite c2g_mv; unfold px, py, pz; cbn [fst snd]. rewrite <- rotate_scal. f_equal. apply eq3; unf; ring.
Qed.
(** ** one cylinder, tangential vorticity only, Model 'VC' *)
Definition tang_only (o : opts XN) : Prop := o_tang o = true /\ o_longi o = false /\ o_root o = false /\ o_no_wake o = false.
Definition loc sh v yaw hub (p : R3) : R3 := mv (mtr (N := RN) (c2g sh v yaw)) (sub3 p hub).
Lemma loc_map t sh v hub U R yaw ps : WF t sh v hub U R yaw -> map (local t) (map lift3 ps) = map lift3 (map (loc sh v yaw hub) ps).
Proof. intros H. rewrite !map_map. apply map_ext. intros p. apply (local_lift _ _ _ _ _ _ _ _ H). Qed.
Lemma single_no_ground t sh v hub U R yaw o g ps w : WF t sh v hub U R yaw -> tang_only o ->
  t_gt t = Some [Fin g : XN] -> ground_on t o = false ->
  cu_tang1 t o (model_of t o) (chi_now t) (Fin g) (map lift3 (map (loc sh v yaw hub) ps)) = Ok w ->
  snd (compute_u t o (map lift3 ps)) = Ok (finish t o (map lift3 ps) (fsum (fzero (map lift3 ps)) (if Reqb g 0 then [] else [w]))).
Proof.
  intros H (T1 & T2 & T3 & T4) HG HN HW. rewrite compute_u_terms, HG. unfold terms. unfold ground_on in HN. unfold model_of in HW. rewrite HN.
  unfold root_terms. rewrite T3. cbn [bind]. unfold ylist. rewrite local_map, (loc_map _ _ _ _ _ _ _ _ H).
  unfold single_terms, single1_terms, mapM. rewrite T1, T2. change (neqb XN (Fin g) (nZ XN 0)) with (Reqb g 0).
  destruct (Reqb g 0); cbn [negb andb]; [reflexivity|].
  rewrite HW. reflexivity.
Qed.
Lemma single_ground t sh v hub U R yaw o g ps w w' : WF t sh v hub U R yaw -> tang_only o ->
  t_gt t = Some [Fin g : XN] -> ground_on t o = true ->
  let q := map (loc sh v yaw hub) ps in
  let h := inner hub v in
  cu_tang1 t o (model_of t o) (chi_now t) (Fin g) (map lift3 q) = Ok w ->
  cu_tang1 t o (model_of t o) (chi_now t) (Fin g) (map lift3 (map (fun p => (px p, py p + 2 * h, pz p)) q)) = Ok w' ->
  snd (compute_u t o (map lift3 ps)) = Ok (finish t o (map lift3 ps) (fsum (fzero (map lift3 ps)) (if Reqb g 0 then [] else [w; w']))).
Proof.
  intros H (T1 & T2 & T3 & T4) HG HN q h HW HW'. rewrite compute_u_terms, HG. unfold terms. unfold ground_on in HN. unfold model_of in HW, HW'. rewrite HN.
  unfold root_terms. rewrite T3. cbn [bind]. unfold ylist. rewrite local_map, (loc_map _ _ _ _ _ _ _ _ H). fold q.
  assert (EM : map (mirror_pt (snd (fst (transform_T (T_c2g t) (t_rhub t))))) (map lift3 q) = map lift3 (map (fun p => (px p, py p + 2 * h, pz p)) q)).
  { rewrite (WF_c2g _ _ _ _ _ _ _ H), (wf_hub _ _ _ _ _ _ _ H), transform_T_lift. rewrite !map_map. apply map_ext. intros p.
    destruct (local_comp sh v yaw hub (wf_frame _ _ _ _ _ _ _ H)) as (_ & E & _). unfold mirror_pt, lift3. cbn [fst snd]. rewrite E. reflexivity. }
  rewrite EM. unfold single_terms, single1_terms, mapM. rewrite T1, T2. change (neqb XN (Fin g) (nZ XN 0)) with (Reqb g 0).
  destruct (Reqb g 0); cbn [negb andb]; [reflexivity|].
  rewrite HW. cbn [bind gl_active1 negb]. rewrite HW'. reflexivity.
Qed.
Lemma fsum1_at pts (w : list xpt) g i a : nth_error w i = Some (lift3 a) -> (i < len pts)%nat -> (g = 0 -> a = zero) ->
  nth_error (fsum (fzero pts) (if Reqb g 0 then [] else [w])) i = Some (lift3 a).
Proof.
  intros E L Z. destruct (Reqb_spec g 0) as [G|G]; cbn [fsum fold_left].
  - rewrite (Z G). apply fzero_at; auto.
  - rewrite (fadd_at _ _ _ _ _ (fzero_at _ _ L) E), add3_z_l. reflexivity.
Qed.
Lemma fsum2_at pts (w w' : list xpt) g i a b : nth_error w i = Some (lift3 a) -> nth_error w' i = Some (lift3 b) -> (i < len pts)%nat -> (g = 0 -> add3 a b = zero) ->
  nth_error (fsum (fzero pts) (if Reqb g 0 then [] else [w; w'])) i = Some (lift3 (add3 a b)).
Proof.
  intros E E' L Z. destruct (Reqb_spec g 0) as [G|G]; cbn [fsum fold_left].
  - rewrite (Z G). apply fzero_at; auto.
  - rewrite (fadd_at _ _ _ _ _ (fadd_at _ _ _ _ _ (fzero_at _ _ L) E) E'), add3_z_l. reflexivity.
Qed.

(** the skew angle the object uses: set explicitly, or (never set, no query yet) the wind direction minus the yaw position *)
Definition skew_is (t : turbine XN) (sh v U : R3) (yaw c : R) : Prop :=
  t_chi t = Some (Fin c : XN) \/
  (t_chi t = None /\ exists s th w, 0 < s /\ - PI < th <= PI /\ U = wind sh v s th w /\ c = th - yaw).
Lemma skew_chi t sh v hub U R yaw c : WF t sh v hub U R yaw -> skew_is t sh v U yaw c -> chi_now t = (Fin c : XN).
Proof.
  intros H [E|(E & s & th & w & Hs & Ht & EU & ->)]; unfold chi_now; rewrite E; [reflexivity|].
  subst U. apply (chi_fresh_X _ _ _ _ _ _ _ _ _ H Hs Ht).
Qed.
Lemma skewed_fin c : skewed (N := XN) (Fin c) = Rltb (1 / 10000000) (Rabs c).
Proof. reflexivity. Qed.
Lemma loc_hub sh v yaw hub : loc sh v yaw hub hub = (0, 0, 0).
Proof.
  unfold loc. assert (E : sub3 hub hub = zero) by (destruct hub as [[x y] z]; unfold sub3, zero, px, py, pz; cbn [fst snd]; rewrite !Rminus_eq_0; reflexivity).
  rewrite E.
  destruct (mtr (N := RN) (c2g sh v yaw)) as [[[[a0 a1] a2] [[b0 b1] b2]] [[c0 c1] c2]]. unfold mv, zero; cbn. t3; ring.
Qed.
Lemma polar_origin : to_polar (N := XN) (lift3 (0, 0, 0)) = (Fin 0, Fin (Ratan2 0 0), Fin 0).
Proof.
  unfold to_polar, lift3, px, py, pz; cbn [fst snd]. change (nsqrt XN) with xsqrt. unfold sq. cbn [nadd nmul XN xadd xmul].
  rewrite xsqrt_fin by lra. replace (0 * 0 + 0 * 0) with 0 by ring. rewrite sqrt_0. reflexivity.
Qed.
Lemma tang_centre t o g R c (Y : list R3) i : t_R t = (Fin R : XN) -> 0 < R -> cos c <> 0 -> nth_error Y i = Some (0, 0, 0) ->
  exists w a, cu_tang1 t o "VC" (Fin c) (Fin g) (map lift3 Y) = Ok w /\ nth_error w i = Some (lift3 a) /\ pz a = g / 2 /\
    (skewed (N := XN) (Fin c) = false -> a = (0, 0, g / 2)).
Proof.
  intros HR hR Hc Hi. unfold cu_tang1. cbn [String.eqb Ascii.eqb Bool.eqb]. destruct (skewed (N := XN) (Fin c)) eqn:S.
  - destruct (C66_rotor_centre g R (tan c) (Ratan2 0 0) 180 hR ltac:(lia)) as (ux & uy & E).
    eexists _, (ux, uy, g / 2). split; [reflexivity|]. rewrite !nth_error_map, Hi. cbn [option_map]. split; [|split; [reflexivity|discriminate]].
    unfold svc_tang_u. rewrite polar_origin, HR. change (ntan XN (Fin c)) with (xtan (Fin c)). cbn [xtan].
    replace (Reqb (cos c) 0) with false by (symmetry; apply Reqb_false; auto). f_equal. etransitivity; [exact E|reflexivity].
  - destruct (C51_axis g R Y i 0 hR Hi) as [_ E]. exists (vc_tang_u (N := XN) (Fin g) (Fin R) (Fin 0) (map xv Y)), (0, 0, g / 2).
    split; [rewrite HR; reflexivity|]. split; [|split; reflexivity].
    etransitivity; [exact E|]. cbv zeta. replace (g / 2 * (1 + 0 / sqrt (R ^ 2 + 0 ^ 2))) with (g / 2) by (unfold Rdiv; rewrite Rmult_0_l; ring). reflexivity.
Qed.
Lemma rotor_centre_WF : forall t sh v hub U Rr yaw o g c (ps : list R3) i,
  WF t sh v hub U Rr yaw -> 0 < Rr -> tang_only o -> model_of t o = "VC"%string -> t_gt t = Some [Fin g : XN] ->
  skew_is t sh v U yaw c -> cos c <> 0 -> ground_on t o = false -> nth_error ps i = Some hub ->
  exists us w, snd (compute_u t o (map lift3 ps)) = Ok us /\ nth_error us i = Some (lift3 w) /\
    let shaft := rotate v yaw sh in let free := if o_only_ind o then zero else U in
    inner w shaft = inner free shaft + g / 2 /\
    (Rabs c <= 1 / 10000000 -> w = add3 free (scal3 (g / 2) shaft)).
Proof.
  intros t sh v hub U Rr yaw o g c ps i H hR HO HM HG HS Hc HN Hi.
  pose proof (wf_frame _ _ _ _ _ _ _ H) as HF.
  assert (Hq : nth_error (map (loc sh v yaw hub) ps) i = Some (0, 0, 0)) by (rewrite nth_error_map, Hi; cbn [option_map]; rewrite loc_hub; reflexivity).
  destruct (tang_centre t o g Rr c _ i (wf_R _ _ _ _ _ _ _ H) hR Hc Hq) as (w & a & EW & EA & PZ & UN).
  assert (L : (i < len (map lift3 ps))%nat) by (rewrite map_length; apply nth_error_Some; rewrite Hi; discriminate).
  assert (EF : exists a', pz a' = g / 2 /\ (skewed (N := XN) (Fin c) = false -> a' = (0, 0, g / 2)) /\
     nth_error (fsum (fzero (map lift3 ps)) (if Reqb g 0 then [] else [w])) i = Some (lift3 a')).
  { destruct (Req_dec g 0) as [G|G].
    - exists zero. repeat split; [unfold zero, pz; cbn [snd]; lra|intros _; rewrite G; unfold zero, Rdiv; rewrite Rmult_0_l; reflexivity|].
      replace (Reqb g 0) with true by (symmetry; apply Reqb_true; auto). apply fzero_at; auto.
    - exists a. repeat split; auto. apply fsum1_at; auto. intros; contradiction. }
  destruct EF as (a' & PZ' & UN' & EF).
  exists (finish t o (map lift3 ps) (fsum (fzero (map lift3 ps)) (if Reqb g 0 then [] else [w]))).
  exists (add3 (mv (c2g sh v yaw) a') (if o_only_ind o then zero else U)). split; [|split; [|split]].
  - apply (single_no_ground _ _ _ _ _ _ _ _ _ _ _ H HO HG HN). rewrite HM, (skew_chi _ _ _ _ _ _ _ _ H HS). exact EW.
  - apply (finish_at _ _ _ _ _ _ _ _ _ _ _ _ H); auto. apply HO.
  - rewrite inner_add_l, shaft_comp by auto. rewrite PZ'. ring.
  - intros SM. rewrite UN', axis_image by (auto; rewrite skewed_fin; apply Rltb_false; lra). apply add3_comm.
Qed.
(** C105.  Whatever the history of the turbine, its position, yaw, wind and skew: a wake of one cylinder of intensity g induces at
    the hub exactly g/2 along the shaft; with no skew nothing else.  With a ground plane the image adds nothing along the shaft if
    the rotor does not cut the ground and the flow is not skewed. *)
Theorem C105_rotor_centre : forall minim t sh v hub U Rr yaw o g c (ps : list R3) i,
  built minim t sh v hub U Rr yaw -> 0 < Rr -> tang_only o -> model_of t o = "VC"%string -> t_gt t = Some [Fin g : XN] ->
  skew_is t sh v U yaw c -> cos c <> 0 -> ground_on t o = false -> nth_error ps i = Some hub ->
  exists us w, snd (compute_u t o (map lift3 ps)) = Ok us /\ nth_error us i = Some (lift3 w) /\
    let shaft := rotate v yaw sh in let free := if o_only_ind o then zero else U in
    inner w shaft = inner free shaft + g / 2 /\
    (Rabs c <= 1 / 10000000 -> w = add3 free (scal3 (g / 2) shaft)).
Proof. intros minim t sh v hub U Rr yaw o g c ps i HB. exact (rotor_centre_WF t sh v hub U Rr yaw o g c ps i (built_WF _ _ _ _ _ _ _ _ HB)). Qed.
(** ** the whole rotor plane, no skew, with or without ground *)
Definition disk (g Rr r : R) : R := if Rltb r Rr then g / 2 else 0.
Definition off_rim (Rr r : R) : Prop := 1 / 100000000 <= Rabs (r - Rr) / Rr.
Lemma tang_plane t o g R c (Y : list R3) i x y : t_R t = (Fin R : XN) -> 0 < R -> Rabs c <= 1 / 10000000 -> nth_error Y i = Some (x, y, 0) ->
  off_rim R (sqrt (x ^ 2 + y ^ 2)) ->
  exists w a, cu_tang1 t o "VC" (Fin c) (Fin g) (map lift3 Y) = Ok w /\ nth_error w i = Some (lift3 a) /\ pz a = disk g R (sqrt (x ^ 2 + y ^ 2)).
Proof.
  intros HR hR Hc Hi HO. unfold cu_tang1. cbn [String.eqb Ascii.eqb Bool.eqb]. rewrite skewed_fin.
  replace (Rltb _ _) with false by (symmetry; apply Rltb_false; lra).
  destruct (C51_rotor_disk g R Y i x y hR Hi) as (ur & uz & ux & uy & _ & E & _ & HV). cbv zeta in HV. specialize (HV HO).
  exists (vc_tang_u (N := XN) (Fin g) (Fin R) (Fin 0) (map xv Y)), (ux, uy, uz). split; [rewrite HR; reflexivity|]. split; [exact E|].
  change (pz (ux, uy, uz)) with uz. unfold disk. destruct (Rltb_spec (sqrt (x ^ 2 + y ^ 2)) R) as [A|A]; [apply HV; auto|].
  destruct (Req_dec (sqrt (x ^ 2 + y ^ 2)) R) as [B|B]; [|apply HV; lra].
  exfalso. unfold off_rim in HO. rewrite B, Rminus_eq_0, Rabs_R0 in HO. unfold Rdiv in HO. rewrite Rmult_0_l in HO. lra.
Qed.
Lemma plane_radius sh v yaw hub p : frame sh v -> inner (sub3 p hub) (rotate v yaw sh) = 0 ->
  let q := loc sh v yaw hub p in
  pz q = 0 /\ sqrt (px q ^ 2 + py q ^ 2) = length3 (sub3 p hub) /\
  (forall h, sqrt (px q ^ 2 + (py q + 2 * h) ^ 2) = length3 (add3 (sub3 p hub) (scal3 (2 * h) v))).
Proof.
  intros HF HP q. destruct (local_comp sh v yaw (sub3 p hub) HF) as (E1 & E2 & E3). fold (loc sh v yaw hub p) in E1, E2, E3. fold q in E1, E2, E3.
  rewrite HP in E3. split; auto.
  pose proof (c2g_tr_inner sh v yaw (sub3 p hub) (sub3 p hub) HF) as HI. fold (loc sh v yaw hub p) in HI. fold q in HI.
  assert (QQ : px q ^ 2 + py q ^ 2 = inner (sub3 p hub) (sub3 p hub)) by (rewrite <- HI; unfold inner; rewrite E3; ring).
  split; [unfold length3; rewrite QQ; reflexivity|]. intros h. unfold length3. f_equal.
  rewrite inner_add_l, !L_Built.inner_add_r, !inner_scal_l, !L_Built.inner_scal_r, <- QQ, (inner_sym v (sub3 p hub)), <- E2.
  replace (inner v v) with 1 by (symmetry; apply HF). ring.
Qed.
Lemma rotor_plane_WF : forall t sh v hub U Rr yaw o g c (ps : list R3) i p,
  WF t sh v hub U Rr yaw -> 0 < Rr -> tang_only o -> model_of t o = "VC"%string -> t_gt t = Some [Fin g : XN] ->
  skew_is t sh v U yaw c -> Rabs c <= 1 / 10000000 -> nth_error ps i = Some p ->
  let shaft := rotate v yaw sh in let free := if o_only_ind o then zero else U in
  let r := length3 (sub3 p hub) in                                     (* distance to the hub *)
  let r' := length3 (sub3 p (sub3 hub (scal3 (2 * inner hub v) v))) in (* distance to the hub's image in the ground *)
  inner (sub3 p hub) shaft = 0 -> off_rim Rr r -> (ground_on t o = true -> off_rim Rr r') ->
  exists us w, snd (compute_u t o (map lift3 ps)) = Ok us /\ nth_error us i = Some (lift3 w) /\
    inner w shaft = inner free shaft + disk g Rr r + (if ground_on t o then disk g Rr r' else 0).
Proof.
  intros t sh v hub U Rr yaw o g c ps i p H hR HO HM HG HS Hc Hi shaft free r r' HP HR1 HR2.
  pose proof (wf_frame _ _ _ _ _ _ _ H) as HF. destruct (plane_radius sh v yaw hub p HF HP) as (Q3 & Q1 & Q2). set (q := loc sh v yaw hub p) in *.
  assert (Er' : r' = length3 (add3 (sub3 p hub) (scal3 (2 * inner hub v) v))).
  { unfold r'. f_equal. generalize (2 * inner hub v); intros k. clear. destruct p as [[p0 p1] p2], hub as [[h0 h1] h2], v as [[v0 v1] v2]. unfold sub3, add3, scal3, px, py, pz; cbn [fst snd]. t3; ring. }
  assert (Hq : nth_error (map (loc sh v yaw hub) ps) i = Some (px q, py q, 0)).
  { rewrite nth_error_map, Hi. cbn [option_map]. rewrite <- Q3. fold q. destruct q as [[? ?] ?]. reflexivity. }
  destruct (tang_plane t o g Rr c _ i _ _ (wf_R _ _ _ _ _ _ _ H) hR Hc Hq) as (w & a & EW & EA & PZ); [rewrite Q1; exact HR1|]. rewrite Q1 in PZ. fold r in PZ.
  assert (L : (i < len (map lift3 ps))%nat) by (rewrite map_length; apply nth_error_Some; rewrite Hi; discriminate).
  pose proof (skew_chi _ _ _ _ _ _ _ _ H HS) as EC.
  assert (D0 : forall x, g = 0 -> disk g Rr x = 0) by (intros x ->; unfold disk; destruct (Rltb x Rr); lra).
  destruct (ground_on t o) eqn:GO.
  - assert (Hq' : nth_error (map (fun p => (px p, py p + 2 * inner hub v, pz p)) (map (loc sh v yaw hub) ps)) i = Some (px q, py q + 2 * inner hub v, 0)).
    { rewrite nth_error_map, Hq. reflexivity. }
    destruct (tang_plane t o g Rr c _ i _ _ (wf_R _ _ _ _ _ _ _ H) hR Hc Hq') as (w' & a' & EW' & EA' & PZ'); [rewrite Q2, <- Er'; auto|]. rewrite Q2, <- Er' in PZ'.
    assert (EF : exists b, pz b = disk g Rr r + disk g Rr r' /\ nth_error (fsum (fzero (map lift3 ps)) (if Reqb g 0 then [] else [w; w'])) i = Some (lift3 b)).
    { destruct (Req_dec g 0) as [G|G].
      - exists zero. replace (Reqb g 0) with true by (symmetry; apply Reqb_true; auto). rewrite !D0 by auto. split; [unfold zero, pz; cbn [snd]; ring|]. apply fzero_at; auto.
      - exists (add3 a a'). split; [rewrite <- PZ, <- PZ'; reflexivity|]. apply fsum2_at; auto. intros; contradiction. }
    destruct EF as (b & PB & EF). eexists _, (add3 (mv (c2g sh v yaw) b) free). split; [|split].
    + apply (single_ground _ _ _ _ _ _ _ _ _ _ w w' H HO HG GO); rewrite HM, EC; assumption.
    + apply (finish_at _ _ _ _ _ _ _ _ _ _ _ _ H); [apply HO|exact EF].
    + rewrite inner_add_l. unfold shaft at 1. rewrite shaft_comp, PB by auto. fold shaft. ring.
  - assert (EF : exists b, pz b = disk g Rr r /\ nth_error (fsum (fzero (map lift3 ps)) (if Reqb g 0 then [] else [w])) i = Some (lift3 b)).
    { destruct (Req_dec g 0) as [G|G].
      - exists zero. replace (Reqb g 0) with true by (symmetry; apply Reqb_true; auto). rewrite !D0 by auto. split; [reflexivity|]. apply fzero_at; auto.
      - exists a. split; [exact PZ|]. apply fsum1_at; auto. intros; contradiction. }
    destruct EF as (b & PB & EF). eexists _, (add3 (mv (c2g sh v yaw) b) free). split; [|split].
    + apply (single_no_ground _ _ _ _ _ _ _ _ _ _ w H HO HG GO); rewrite HM, EC; assumption.
    + apply (finish_at _ _ _ _ _ _ _ _ _ _ _ _ H); [apply HO|exact EF].
    + rewrite inner_add_l. unfold shaft at 1. rewrite shaft_comp, PB by auto. fold shaft. ring.
Qed.
Theorem C105_rotor_plane : forall minim t sh v hub U Rr yaw o g c (ps : list R3) i p,
  built minim t sh v hub U Rr yaw -> 0 < Rr -> tang_only o -> model_of t o = "VC"%string -> t_gt t = Some [Fin g : XN] ->
  skew_is t sh v U yaw c -> Rabs c <= 1 / 10000000 -> nth_error ps i = Some p ->
  let shaft := rotate v yaw sh in let free := if o_only_ind o then zero else U in
  let r := length3 (sub3 p hub) in                                     (* distance to the hub *)
  let r' := length3 (sub3 p (sub3 hub (scal3 (2 * inner hub v) v))) in (* distance to the hub's image in the ground *)
  inner (sub3 p hub) shaft = 0 -> off_rim Rr r -> (ground_on t o = true -> off_rim Rr r') ->
  exists us w, snd (compute_u t o (map lift3 ps)) = Ok us /\ nth_error us i = Some (lift3 w) /\
    inner w shaft = inner free shaft + disk g Rr r + (if ground_on t o then disk g Rr r' else 0).
Proof. intros minim t sh v hub U Rr yaw o g c ps i p HB. exact (rotor_plane_WF t sh v hub U Rr yaw o g c ps i p (built_WF _ _ _ _ _ _ _ _ HB)). Qed.

(** ** C106: from the thrust coefficient to the velocity at the rotor *)
(** the small term the code adds to the thrust (it divides by the square of the whole denominator, see C33) *)
Definition eps_conv (CT U Om Rr : R) : R := CT * (U * U) / (16 * PI * (Om * Om * Om) * (Rr * Rr)).
Definition ind_of (CT e : R) : R :=
  if Rltb (8976 / 10000) CT then (CT - 4 * (34 / 100 * (34 / 100))) / (4 * (1 - 2 * (34 / 100)))
  else (1 - sqrt (1 - CT * (1 + e))) / 2.
Lemma one_cylinder minim CT Rr U Om Om0 : 0 < Rr -> 0 < U -> 0 < Om -> omega_fix (N := XN) Om0 = Fin Om -> 20 <= Om * Rr / U ->
  (CT <= 8976 / 10000 -> CT * (1 + eps_conv CT U Om Rr) <= 1) ->
  exists w, WakeVorticityFromCt (N := XN) minim [Fin (995 / 1000 * Rr) : XN] [Fin CT : XN] (Fin Rr) (Fin U) Om0 = Ok w /\
    w_gt w = [Fin (- (2 * ind_of CT (eps_conv CT U Om Rr) * U)) : XN].
Proof.
  intros hR hU hO EO HL HC. pose proof PI_RGT_0 as HP. unfold WakeVorticityFromCt. rewrite EO.
  assert (P2 : 0 < U * U) by (apply Rmult_lt_0_compat; auto).
  assert (S : nlt XN (ndiv XN (nmul XN (Fin Om) (Fin Rr)) (Fin U)) (nZ XN 20) = false).
  { xn. rewrite xdiv_fin by lra. cbn [xlt]. apply Rltb_false. lra. }
  rewrite S. cbn [CirculationFromPrescribedCt map]. unfold WakeVorticityFromCirculation_Discr. cbn [default_r_cyl].
  replace (nlt XN (amax [Fin Rr : XN]) (amax [Fin (995 / 1000 * Rr) : XN])) with false by (symmetry; cbn; apply Rltb_false; lra).
  replace (neqb XN (Fin Rr) (nZ XN 0)) with false by (symmetry; cbn; apply Reqb_false; lra).
  eexists. split; [reflexivity|]. cbn [w_gt].
  cbn [map map2 ap_conv dloop fold_right dstep dinit d_next d_gs d_rl d_bs d_ce fst snd andb].
  assert (G : nmul XN (ndiv XN (nmul XN (nmul XN (Fin CT) (npi XN)) (sq (N := XN) (Fin U))) (Fin Om)) (nZ XN 1) = Fin (CT * PI * (U * U) / Om)).
  { unfold sq. xn. rewrite xdiv_fin by lra. cbn [xmul]. f_equal. ring. }
  rewrite G.
  assert (K : ndiv XN (nmul XN (Fin (CT * PI * (U * U) / Om)) (Fin Om)) (nmul XN (npi XN) (sq (N := XN) (Fin U))) = Fin CT).
  { unfold sq. xn. rewrite xdiv_fin by (apply Rgt_not_eq, Rmult_lt_0_compat; auto). f_equal. field. lra. }
  rewrite K.
  assert (A : ndiv XN (Fin (CT * PI * (U * U) / Om)) (sq (N := XN) (nmul XN (nmul XN (nmul XN (nZ XN 4) (npi XN)) (Fin Om)) (Fin Rr))) = Fin (eps_conv CT U Om Rr)).
  { assert (Q : 0 < 4 * PI * Om * Rr) by (apply Rmult_lt_0_compat; [apply Rmult_lt_0_compat; [apply Rmult_lt_0_compat|]|]; lra).
    unfold sq. xn. rewrite xdiv_fin by (apply Rgt_not_eq, Rmult_lt_0_compat; auto). f_equal. unfold eps_conv. field. lra. }
  rewrite A. unfold spera, ac, Ct_c, ac, sq. xn. rewrite xdiv_fin by lra. cbn [xlt xadd xsub xmul xopp].
  set (e := eps_conv CT U Om Rr) in *. unfold ind_of.
  replace (4 * (34 / 100) * (1 - 34 / 100)) with (8976 / 10000) by lra. replace (CT - 0) with CT by ring.
  destruct (Rltb_spec (8976 / 10000) CT) as [Q|Q].
  - cbn [xmul]. do 2 f_equal. field.
  - rewrite xsqrt_fin by (specialize (HC ltac:(lra)); lra). cbn [xadd xmul]. do 2 f_equal. field.
Qed.
Lemma np_mean_fin cts : cts <> [] -> np_mean (N := XN) (map Fin cts) = Fin (lsum cts / INR (len cts)).
Proof.
  intros H. unfold np_mean. rewrite nsum_fin, map_length. change (nZ XN (Z.of_nat (len cts))) with (Fin (IZR (Z.of_nat (len cts)))).
  rewrite <- INR_IZR_INZ. change (ndiv XN) with xdiv. apply xdiv_fin. apply not_0_INR. destruct cts; [contradiction|discriminate].
Qed.
(** the rotational speed used: the given tip-speed ratio, or 800 rad/s when it is infinite *)
Definition speed_of (L : XN) (U Rr Om : R) : Prop := (L = PInf /\ Om = 800) \/ (exists l, L = Fin l /\ Om = l * U / Rr).
Definition default_to (t : turbine XN) (Lam : option XN) : option XN := match Lam with Some l => Some l | None => t_Lambda t end.
Lemma load_one minim t sh v hub U Rr yaw r cts Lam L Om : WF t sh v hub U Rr yaw -> 0 < Rr -> 0 < length3 U -> cts <> [] ->
  default_to t Lam = Some L -> speed_of L (length3 U) Rr Om -> 20 <= Om * Rr / length3 U ->
  let CT := lsum cts / INR (len cts) in
  let e := eps_conv CT (length3 U) Om Rr in
  (CT <= 8976 / 10000 -> CT * (1 + e) <= 1) ->
  exists t', update_loading minim r (Some (map Fin cts : list XN)) None Lam (Some 1%nat) None t = (t', Ok tt) /\
    t_gt t' = Some [Fin (- (2 * ind_of CT e * length3 U)) : XN] /\ t_chi t' = t_chi t /\ t_ground t' = t_ground t /\ t_model t' = t_model t.
Proof.
  intros H hR hU HC HL HS H20 CT e HE. set (Un := length3 U) in *.
  assert (hO : 0 < Om). { apply (Rmult_lt_reg_r (Rr / Un)); [apply Rdiv_lt_0_compat; auto|]. replace (Om * (Rr / Un)) with (Om * Rr / Un) by (unfold Rdiv; ring). lra. }
  assert (EO : omega_fix (N := XN) (ndiv XN (nmul XN L (Fin Un)) (Fin Rr)) = Fin Om).
  { destruct HS as [(-> & ->)|(l & -> & ->)]; unfold omega_fix.
    - xn. cbn [xmul]. unfold xinf_mul. replace (Rltb 0 Un) with true by (symmetry; apply Rltb_true; auto). cbn [xdiv].
      match goal with |- context [xdiv PInf (Fin Rr)] => idtac | _ => idtac end. unfold xdiv. replace (Rltb Rr 0) with false by (symmetry; apply Rltb_false; lra).
      cbn [xeqb]. reflexivity.
    - xn. rewrite xdiv_fin by lra. cbn [xeqb]. reflexivity. }
  destruct (one_cylinder minim CT Rr Un Om _ hR hU hO EO H20 HE) as (w & EW & EG).
  unfold update_loading. rewrite (wf_R _ _ _ _ _ _ _ H), (wf_U0 _ _ _ _ _ _ _ H), norm_lift. fold Un.
  cbn [load_interp option_map]. unfold default_to in HL. rewrite HL, (np_mean_fin cts HC). fold CT.
  unfold mbind, mlift, massign. cbn [need bind].
  assert (EW' : WakeVorticityFromCt (N := XN) minim [nmul XN (nQ XN 995 1000) (Fin Rr)] [Fin CT : XN] (Fin Rr) (Fin Un) (ndiv XN (nmul XN L (Fin Un)) (Fin Rr)) = Ok w) by exact EW.
  rewrite EW'. eexists. split; [reflexivity|]. cbn [t_gt set_Ct set_r set_Lambda set_Gr set_gl set_gt t_chi t_ground t_model]. rewrite EG. repeat split.
Qed.
(** C106.  Loading a turbine with a thrust distribution of mean CT (default single cylinder, high tip-speed ratio) and asking for the
    velocity at the hub gives the wind component minus a|U| along the shaft, a being momentum theory's induction for CT(1+e) below the
    high-thrust limit 0.8976 and the Spera correction above; e is the code's convection term *)
Theorem C106_thrust_to_velocity : forall minim t sh v hub U Rr yaw r cts Lam L Om,
  built minim t sh v hub U Rr yaw -> 0 < Rr -> 0 < length3 U -> cts <> [] ->
  default_to t Lam = Some L -> speed_of L (length3 U) Rr Om -> 20 <= Om * Rr / length3 U ->
  let CT := lsum cts / INR (len cts) in
  let e := eps_conv CT (length3 U) Om Rr in
  (CT <= 8976 / 10000 -> CT * (1 + e) <= 1) ->
  exists t', update_loading minim r (Some (map Fin cts : list XN)) None Lam (Some 1%nat) None t = (t', Ok tt) /\
    forall o c (ps : list R3) i, tang_only o -> model_of t o = "VC"%string -> ground_on t o = false ->
      skew_is t sh v U yaw c -> cos c <> 0 -> nth_error ps i = Some hub ->
      exists us w, snd (compute_u t' o (map lift3 ps)) = Ok us /\ nth_error us i = Some (lift3 w) /\
        let shaft := rotate v yaw sh in
        inner w shaft = inner (if o_only_ind o then zero else U) shaft - ind_of CT e * length3 U.
Proof.
  intros minim t sh v hub U Rr yaw r cts Lam L Om HB hR hU HC HL HS H20 CT e HE.
  pose proof (built_WF _ _ _ _ _ _ _ _ HB) as H.
  destruct (load_one minim t sh v hub U Rr yaw r cts Lam L Om H hR hU HC HL HS H20 HE) as (t' & EL & EG & EC & EGr & EM). fold CT e in EG.
  exists t'. split; auto. intros o c ps i HO HM HN SK Hc Hi.
  assert (HB' : built minim t' sh v hub U Rr yaw) by (replace t' with (fst (t', @Ok unit tt)) by reflexivity; rewrite <- EL; apply b_load; auto).
  destruct (C105_rotor_centre minim t' sh v hub U Rr yaw o (- (2 * ind_of CT e * length3 U)) c ps i HB' hR HO) as (us & w & E1 & E2 & E3 & _); auto.
  - unfold model_of in *. rewrite EM. auto.
  - unfold skew_is. rewrite EC. exact SK.
  - unfold ground_on in *. rewrite EGr. auto.
  - exists us, w. split; auto. split; auto. cbv zeta in *. rewrite E3. fold CT e. field.
Qed.
Theorem C106_close_to_momentum : forall CT e, 0 <= CT <= 8976 / 10000 -> 0 <= e -> CT * (1 + e) <= 1 ->
  let a := (1 - sqrt (1 - CT)) / 2 in                          (* momentum theory: CT = 4 a (1-a) *)
  CT = 4 * a * (1 - a) /\ 0 <= ind_of CT e - a <= CT * e / (2 * sqrt (1 - CT)).
Proof.
  intros CT e HC He H1 a. assert (S0 : 0 < sqrt (1 - CT)) by (apply sqrt_lt_R0; lra).
  assert (S2 : sqrt (1 - CT) * sqrt (1 - CT) = 1 - CT) by (apply sqrt_sqrt; lra). split; [unfold a; lra|].
  unfold ind_of. replace (Rltb (8976 / 10000) CT) with false by (symmetry; apply Rltb_false; lra). unfold a.
  set (s := sqrt (1 - CT)) in *. set (s' := sqrt (1 - CT * (1 + e))).
  assert (P' : 0 <= s') by apply sqrt_pos. assert (S2' : s' * s' = 1 - CT * (1 + e)) by (apply sqrt_sqrt; lra).
  assert (CE : 0 <= CT * e) by (apply Rmult_le_pos; lra).
  assert (LE : s' <= s) by (apply sqrt_le_1_alt; lra).
  replace ((1 - s') / 2 - (1 - s) / 2) with ((s - s') / 2) by field. split; [lra|].
  apply (Rmult_le_reg_r (2 * s)); [lra|]. replace (CT * e / (2 * s) * (2 * s)) with (CT * e) by (field; lra).
  replace (CT * e) with ((s - s') * (s + s')) by (replace ((s - s') * (s + s')) with (s * s - s' * s') by ring; rewrite S2, S2'; ring).
  replace ((s - s') / 2 * (2 * s)) with ((s - s') * s) by field. apply Rmult_le_compat_l; lra.
Qed.
(** at the default infinite tip-speed ratio the side conditions reduce to: radius at least |U|/40; and then e < 1e-7 *)
Theorem C106_infinite_tsr : forall CT U Rr, 0 < U -> U / 40 <= Rr -> 0 <= CT <= 1 ->
  20 <= 800 * Rr / U /\ 0 <= eps_conv CT U 800 Rr <= 1 / 10000000 /\ (CT <= 8976 / 10000 -> CT * (1 + eps_conv CT U 800 Rr) <= 1).
Proof.
  intros CT U Rr hU HR HC. pose proof PI_RGT_0 as HP. pose proof PI_4. assert (HP3 : 3 < PI) by (pose proof PI2_3_2; unfold PI2 in *; lra).
  assert (hR : 0 < Rr) by lra.
  assert (A : 20 <= 800 * Rr / U) by (apply (Rmult_le_reg_r U); auto; unfold Rdiv; rewrite (Rmult_assoc (800 * Rr)), Rinv_l by lra; lra).
  assert (B : 0 <= eps_conv CT U 800 Rr <= 1 / 10000000).
  { unfold eps_conv. assert (R2 : 0 < Rr * Rr) by (apply Rmult_lt_0_compat; auto). assert (U2 : 0 < U * U) by (apply Rmult_lt_0_compat; auto).
    assert (UR : U * U <= 1600 * (Rr * Rr)) by nra. assert (D : 0 < 16 * PI * (800 * 800 * 800) * (Rr * Rr)) by (apply Rmult_lt_0_compat; [|auto]; lra).
    split; [apply Rmult_le_pos; [apply Rmult_le_pos; lra|left; apply Rinv_0_lt_compat; auto]|].
    apply (Rmult_le_reg_r (16 * PI * (800 * 800 * 800) * (Rr * Rr))); auto. unfold Rdiv at 1. rewrite Rmult_assoc, Rinv_l by lra. rewrite Rmult_1_r.
    apply Rle_trans with (1 * (U * U)); [apply Rmult_le_compat_r; lra|].
    assert (PR : 3 * (Rr * Rr) <= PI * (Rr * Rr)) by (apply Rmult_le_compat_r; lra). lra. }
  split; auto. split; auto. intros H1. apply Rle_trans with (8976 / 10000 * (1 + 1 / 10000000)); [apply Rmult_le_compat; lra|lra].
Qed.
(** the hypotheses are met: a 50 m rotor in a 10 m/s wind 20 degrees (pi/9) off the shaft, loaded with CT = 0.6 *)
Definition wt50 : turbine XN := new_turbine (N := XN) (Fin 50) (lift3 (0, 0, 90)) (lift3 (1, 0, 0)) (lift3 (0, 0, 1)) (lift3 (wind (1,0,0) (0,0,1) 10 (PI/9) 0)) None (Some PInf) "" false "VC".
Example C106_case : forall minim,
  built minim wt50 (1,0,0) (0,0,1) (0,0,90) (wind (1,0,0) (0,0,1) 10 (PI/9) 0) 50 0 /\
  length3 (wind (1,0,0) (0,0,1) 10 (PI/9) 0) = 10 /\ speed_of PInf 10 50 800 /\ default_to wt50 None = Some PInf /\
  skew_is wt50 (1,0,0) (0,0,1) (wind (1,0,0) (0,0,1) 10 (PI/9) 0) 0 (PI/9) /\ cos (PI/9) <> 0 /\
  lsum [6/10; 6/10] / INR (len [6/10; 6/10]) = 6/10 /\ tang_only default_opts /\ ground_on wt50 default_opts = false /\ model_of wt50 default_opts = "VC"%string.
Proof.
  intros minim. pose proof PI_RGT_0 as HP.
  assert (HF : frame (1,0,0) (0,0,1)) by (repeat split; unfold unit3, perp, inner, px, py, pz; cbn [fst snd]; ring).
  split; [apply b_new; auto|]. split.
  { unfold wind. rewrite rotate_frame by auto. unfold length3. transitivity (sqrt (10 * 10)); [f_equal|apply sqrt_square; lra].
    pose proof (sin2_cos2 (PI / 9)) as S. unfold Rsqr in S.
    transitivity (10 * 10 * (sin (PI / 9) * sin (PI / 9) + cos (PI / 9) * cos (PI / 9))); [unf; ring|rewrite S; ring]. }
  split; [left; auto|]. split; [reflexivity|]. split.
  { right. split; [reflexivity|]. exists 10, (PI / 9), 0. repeat split; try lra. }
  split; [apply Rgt_not_eq, cos_gt_0; lra|]. split; [cbn; lra|]. repeat split.
Qed.
