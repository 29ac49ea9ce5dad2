(** * Reachable turbines (specification of histories) and derived facts *)
From Coq Require Import ZArith List Bool Arith Lia String Reals Lra Psatz.
From Verif Require Import Num NumR NumX Spec M_Cylinder M_Solver M_Turbine
  L_List L_Turbine L_State L_Farm L_Geom L_Angles L_TurbineX L_TurbineY L_Multi.
Import ListNotations.
Local Notation len := List.length.
Local Open Scope R_scope.

(** [built t sh v hub U R yaw]: [t] is reached from the constructor (untilted unit
    shaft [sh], unit vertical [v]) by any history of public calls, and [hub], [U],
    [yaw] are the values last given to update_position / update_wind /
    update_yaw_pos. *)
Inductive built (minim : (XN -> XN) -> XN -> XN -> XN) :
  turbine XN -> R3 -> R3 -> R3 -> R3 -> R -> R -> Prop :=
| b_new sh v hub U R Ct Lam name gr mo : frame sh v ->
    built minim (new_turbine (N := XN) (Fin R) (lift3 hub) (lift3 sh) (lift3 v) (lift3 U) Ct Lam name gr mo)
          sh v hub U R 0
| b_yaw t sh v hub U R yaw y : built minim t sh v hub U R yaw ->
    built minim (update_yaw_pos t (Fin y)) sh v hub U R y
| b_wind t sh v hub U R yaw U' : built minim t sh v hub U R yaw ->
    built minim (update_wind t (lift3 U')) sh v hub U' R yaw
| b_pos t sh v hub U R yaw p : built minim t sh v hub U R yaw ->
    built minim (update_position t (lift3 p)) sh v p U R yaw
| b_load t sh v hub U R yaw r Ct G L n f : built minim t sh v hub U R yaw ->
    built minim (fst (update_loading minim r Ct G L n f t)) sh v hub U R yaw
| b_set_chi t sh v hub U R yaw c : built minim t sh v hub U R yaw ->
    built minim (set_chi t c) sh v hub U R yaw
| b_query t sh v hub U R yaw o pts : built minim t sh v hub U R yaw ->
    built minim (fst (compute_u t o pts)) sh v hub U R yaw.

Lemma built_WF minim t sh v hub U R yaw : built minim t sh v hub U R yaw -> WF t sh v hub U R yaw.
Proof.
  induction 1.
  - apply WF_new; auto.
  - eapply WF_yaw; eauto.
  - eapply WF_wind; eauto.
  - eapply WF_pos; eauto.
  - apply WF_load; auto.
  - apply WF_chi; auto.
  - rewrite compute_u_fst. apply WF_chi; auto.
Qed.

Lemma inner_add_r (a b c : R3) : inner a (add3 b c) = inner a b + inner a c.
Proof. pt3; unf; ring. Qed.
Lemma inner_scal_r k (a b : R3) : inner a (scal3 k b) = k * inner a b.
Proof. pt3; unf; ring. Qed.
(** ** yaw_error in the extended reals *)
Lemma rotate_2kPI u v th (k : Z) : rotate u (th + 2 * IZR k * PI) v = rotate u th v.
Proof.
  assert (C : forall n x, cos (x + 2 * INR n * PI) = cos x /\ sin (x + 2 * INR n * PI) = sin x)
    by (intros; split; [apply cos_period|apply sin_period]).
  assert (H : cos (th + 2 * IZR k * PI) = cos th /\ sin (th + 2 * IZR k * PI) = sin th).
  { destruct (Z_le_dec 0 k) as [Hk|Hk].
    - destruct (C (Z.to_nat k) th) as [C1 C2]. rewrite INR_IZR_INZ, Z2Nat.id in C1, C2 by lia. auto.
    - destruct (C (Z.to_nat (- k)) (th + 2 * IZR k * PI)) as [C1 C2].
      rewrite INR_IZR_INZ, Z2Nat.id in C1, C2 by lia. rewrite opp_IZR in C1, C2.
      replace (th + 2 * IZR k * PI + 2 * - IZR k * PI) with th in C1, C2 by ring. auto. }
  unfold rotate. destruct H as [-> ->]. reflexivity.
Qed.

Lemma yaw_error_X t sh v hub R yaw s th :
  WF t sh v hub (wind sh v s th 0) R yaw -> 0 < s ->
  yaw_error t = Fin (Rsgn (inner (vprod (rotate v th sh) (rotate v yaw sh)) v) *
                     acos (inner (rotate v th sh) (rotate v yaw sh))).
Proof.
  intros H Hs. pose proof (wf_frame _ _ _ _ _ _ _ H) as HF.
  unfold yaw_error. rewrite (wf_U0 _ _ _ _ _ _ _ H), (wf_vert _ _ _ _ _ _ _ H), (wf_shaft _ _ _ _ _ _ _ H).
  assert (W : wind sh v s th 0 = scal3 s (rotate v th sh)).
  { unfold wind. apply eq3; unfold add3, scal3, px, py, pz; cbn [fst snd]; ring. }
  rewrite W, norm_lift.
  assert (Hl : length3 (scal3 s (rotate v th sh)) = s).
  { rewrite length3_scal, length3_unit, Rabs_pos_eq; try lra.
    unfold unit3. rewrite rotate_inner by apply HF. apply HF. }
  rewrite Hl, vdivs_lift by lra.
  assert (He : scal3 (/ s) (scal3 s (rotate v th sh)) = rotate v th sh).
  { apply eq3; unfold scal3, px, py, pz; cbn [fst snd]; field; lra. }
  rewrite He, cross_lift, !dot_lift. cbn [nsign nmul nacos XN xsign].
  assert (Hb : -1 <= inner (rotate v th sh) (rotate v yaw sh) <= 1).
  { replace yaw with (th + (yaw - th)) by ring. rewrite <- rotate_plus by apply HF.
    rewrite rotate_inner by apply HF.
    rewrite rotate_frame, inner_add_r, !inner_scal_r by auto.
    destruct (frame_perp_basis sh v HF) as (_ & B2 & _ & _). unfold perp in B2. rewrite B2.
    replace (inner sh sh) with 1 by (symmetry; apply HF).
    pose proof (COS_bound (yaw - th)). lra. }
  rewrite xacos_fin by auto. reflexivity.
Qed.
Lemma yaw_error_inner sh v th d : frame sh v ->
  inner (rotate v th sh) (rotate v (th + d) sh) = cos d /\
  inner (vprod (rotate v th sh) (rotate v (th + d) sh)) v = sin d.
Proof.
  intros HF. rewrite <- rotate_plus by apply HF.
  destruct (frame_perp_basis sh v HF) as (B1 & B2 & B3 & B4). unfold perp in *.
  split.
  - rewrite rotate_inner by apply HF. rewrite rotate_frame, inner_add_r, !inner_scal_r by auto.
    rewrite B2. replace (inner sh sh) with 1 by (symmetry; apply HF). ring.
  - rewrite rotate_vprod by apply HF.
    transitivity (inner (rotate v th (vprod sh (rotate v d sh))) (rotate v th v));
      [rewrite (rotate_axis v th) by apply HF; reflexivity|].
    rewrite rotate_inner by apply HF. rewrite rotate_frame by auto.
    assert (E : vprod sh (add3 (scal3 (cos d) sh) (scal3 (sin d) (vprod v sh))) =
                scal3 (sin d) (vprod sh (vprod v sh))).
    { clear. generalize (cos d), (sin d), (vprod v sh). intros c s w. pt3. unf. t3; ring. }
    rewrite E, B4, inner_scal_l. replace (inner v v) with 1 by (symmetry; apply HF). ring.
Qed.
Lemma sgn_acos d : - PI < d < PI -> Rsgn (sin d) * acos (cos d) = d.
Proof.
  intros Hd. destruct (Req_dec d 0) as [->|Hd0].
  - rewrite cos_0, acos_1. ring.
  - pose proof (sin_sgn d ltac:(lra)) as S.
    destruct (Reqb_spec (Rsgn (sin d)) 0) as [E|E]; auto.
    exfalso. revert E. unfold Rsgn. destruct (Rlt_dec 0 (sin d)); [lra|]. destruct (Rlt_dec (sin d) 0); [lra|].
    intros _. destruct (Rlt_le_dec 0 d).
    + pose proof (sin_gt_0 d). lra.
    + pose proof (sin_gt_0 (- d)). rewrite sin_neg in H. lra.
Qed.

(** ** rotor_disk_points *)
Lemma linspace_X a b n : linspace (N := XN) (Fin a) (Fin b) n = map Fin (linspace (N := RN) a b n).
Proof.
  unfold linspace. destruct n as [|[|k]]; auto. rewrite map_map. apply map_ext. intros i.
  cbn [nadd nsub nmul ndiv nZ XN RN xadd xsub xmul].
  rewrite xdiv_fin; [reflexivity|]. apply not_0_IZR. lia.
Qed.
Lemma rotor_disk_any (t : turbine XN) e hub R nP :
  t_shaft t = lift3 e -> t_rhub t = lift3 hub -> t_R t = Fin R -> unit3 e -> 0 <= R ->
  exists ps, rotor_disk_points t nP = Ok (map lift3 ps) /\ len ps = nP /\
    (forall p, In p ps -> length3 (sub3 p hub) = R /\ perp (sub3 p hub) e) /\
    (forall p q, nth_error ps 0 = Some p -> nth_error ps (nP - 1) = Some q -> p = q).
Proof.
  intros Es Eh ER Ue HR.
  destruct (orth_vect_ok e) as (o & Eo & Uo & Po).
  { unfold unit3 in Ue. rewrite Ue. lra. }
  unfold rotor_disk_points. rewrite Es, Eo. cbn [bind].
  rewrite ER, Eh.
  set (F := fun th => add3 hub (rotate e th (scal3 R o))).
  exists (map F (linspace (N := RN) 0 (2 * PI) nP)).
  split; [|split; [|split]].
  - f_equal. change (nmul XN (nZ XN 2) (npi XN)) with (Fin (2 * PI)). change (nZ XN 0) with (Fin 0).
    rewrite linspace_X, !map_map. apply map_ext. intros th.
    rewrite vscale_lift, RotMat_lift, mvec_lift, RotMat_rodrigues, vadd_lift. reflexivity.
  - rewrite map_length. apply linspace_len.
  - intros p Hp. apply in_map_iff in Hp. destruct Hp as (th & <- & _).
    pose proof (rotor_point_dist e o hub R th Ue Uo Po HR) as D. cbv zeta in D.
    assert (E : vadd (N := RN) hub (mvec (N := RN) (RotMat_AxisAngle (N := RN) e th) (vscale (N := RN) R o)) = F th).
    { rewrite vscale_scal3. change (mvec (N := RN)) with mv. rewrite RotMat_rodrigues, vadd_add3. reflexivity. }
    rewrite E in D. exact D.
  - intros p q Hp Hq. rewrite nth_error_map in Hp, Hq.
    destruct nP as [|[|k]]; [discriminate| |].
    + cbn [Nat.sub] in Hq. congruence.
    + unfold linspace in Hp, Hq. cbn [seq map nth_error option_map] in Hp.
      replace (S (S k) - 1)%nat with (S k) in Hq by lia.
      rewrite nth_error_map in Hq.
      rewrite (nth_error_nth' (seq 0 (S (S k))) 0%nat) in Hq by (rewrite seq_length; lia).
      rewrite seq_nth in Hq by lia. cbn [option_map] in Hq.
      injection Hp; intros <-. injection Hq; intros <-.
      unfold F. f_equal. cbn [nadd nsub nmul ndiv nZ RN].
      change (Z.of_nat 0) with 0%Z.
      cbn [Nat.add Z.of_nat]. set (z := IZR (Z.pos (Pos.of_succ_nat k))).
      assert (Hz : z <> 0) by (unfold z; apply not_0_IZR; lia).
      transitivity (rotate e 0 (scal3 R o)); [f_equal; ring|].
      rewrite <- (rotate_2PI e (scal3 R o) 0). f_equal. field. exact Hz.
Qed.
Lemma rotor_disk_X t sh v hub U R yaw nP : WF t sh v hub U R yaw -> 0 <= R ->
  exists ps, rotor_disk_points t nP = Ok (map lift3 ps) /\ len ps = nP /\
    (forall p, In p ps -> length3 (sub3 p hub) = R /\ perp (sub3 p hub) (rotate v yaw sh)) /\
    (forall p q, nth_error ps 0 = Some p -> nth_error ps (nP - 1) = Some q -> p = q).
Proof.
  intros H HR. pose proof (wf_frame _ _ _ _ _ _ _ H) as HF.
  apply rotor_disk_any; [apply (wf_shaft _ _ _ _ _ _ _ H)|apply (wf_hub _ _ _ _ _ _ _ H)|apply (wf_R _ _ _ _ _ _ _ H)| |exact HR].
  unfold unit3; rewrite rotate_inner by apply HF; apply HF.
Qed.
