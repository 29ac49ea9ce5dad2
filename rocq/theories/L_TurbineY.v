(** * WindTurbine: invariances, several cylinders, when compute_u raises *)
From Coq Require Import ZArith List Bool Arith Lia String Reals Lra Psatz Permutation.
From Verif Require Import Num NumR NumX Spec M_Elliptic M_Line M_Doublet M_Cylinder M_Skewed
  M_Solver M_Turbine L_List L_Turbine L_State L_Farm L_Geom L_Angles L_TurbineX.
Import ListNotations.
Local Notation len := List.length.

Section Gen.
  Context {N : Num}.
  Local Open Scope num_scope.
  Notation pt := (N * N * N)%type.

  Definition ground_on (t : turbine N) (o : opts N) : bool :=
    match o_ground o with Some g => g | None => t_ground t end.
  Definition model_of (t : turbine N) (o : opts N) : string :=
    match o_Model o with Some m => m | None => t_model t end.

  Lemma fzero_map {f : pt -> pt} (pts : list pt) : fzero (map f pts) = fzero pts.
  Proof. unfold fzero. rewrite map_map. reflexivity. Qed.

  Lemma local_map (t : turbine N) pts :
    map (shift (transform_T (T_c2g t) (t_rhub t))) (map (transform_T (T_c2g t)) pts) = map (local t) pts.
  Proof. rewrite map_map. reflexivity. Qed.

  Lemma multi_local (t t' : turbine N) o Mo chi gs c c' pts pts' :
    t_r t = t_r t' -> t_gl t = t_gl t' ->
    map (shift c) pts = map (shift c') pts' ->
    multi_terms t o Mo chi gs false c pts = multi_terms t' o Mo chi gs false c' pts'.
  Proof.
    intros H1 H2 H. unfold multi_terms. rewrite H1, H2.
    assert (Z : fzero pts = fzero pts').
    { rewrite <- (fzero_map (f := shift c) pts), H, fzero_map. reflexivity. }
    unfold svcs_tang_u, svcs_longi_u, vcs_tang_u, vcs_longi_u, vcs_tang_u_gen, vcs_longi_u_gen, ylist.
    cbn [fold_left fst snd]. rewrite Z, H. reflexivity.
  Qed.

  Lemma terms_local (t t' : turbine N) o gs pts pts' :
    ground_on t o = false -> ground_on t' o = false ->
    t_R t = t_R t' -> t_r t = t_r t' -> t_gl t = t_gl t' -> t_Gr t = t_Gr t' -> t_model t = t_model t' ->
    chi_now t = chi_now t' -> map (local t) pts = map (local t') pts' ->
    terms t o gs pts = terms t' o gs pts'.
  Proof.
    intros G1 G2 HR Hr Hgl HGr Hm Hc HL. unfold terms. unfold ground_on in *. rewrite G1, G2.
    unfold ylist. rewrite !local_map, HL, Hc, Hm.
    assert (E1 : forall Yl, root_terms t o (chi_now t') Yl = root_terms t' o (chi_now t') Yl)
      by (intros; unfold root_terms; rewrite HGr; reflexivity).
    rewrite E1. destruct (root_terms _ _ _ _); [|reflexivity]. cbn [bind].
    set (Mo := match o_Model o with Some m => m | None => t_model t' end).
    assert (E2 : forall g Yl, single_terms t o Mo (chi_now t') g Yl = single_terms t' o Mo (chi_now t') g Yl).
    { intros. unfold single_terms. f_equal. apply mapM_ext. intros Y _.
      unfold single1_terms, cu_tang1, cu_longi1, gl_active1. rewrite HR, Hgl. reflexivity. }
    assert (E3 : multi_terms t o Mo (chi_now t') gs false (transform_T (T_c2g t) (t_rhub t))
                   (map (transform_T (T_c2g t)) pts) =
                 multi_terms t' o Mo (chi_now t') gs false (transform_T (T_c2g t') (t_rhub t'))
                   (map (transform_T (T_c2g t')) pts')).
    { apply multi_local; auto. rewrite !local_map. exact HL. }
    destruct gs as [|g [|g' gs]]; rewrite ?E2, ?E3; reflexivity.
  Qed.
  Lemma fsum_fzero_local (t t' : turbine N) pts pts' :
    map (local t) pts = map (local t') pts' -> fzero pts = fzero pts'.
  Proof. intros H. rewrite <- (fzero_map (f := local t) pts), H, fzero_map. reflexivity. Qed.

  (** ** Translation *)
  Lemma finish_local (t t' : turbine N) o pts pts' u :
    T_c2g t = T_c2g t' -> t_R t = t_R t' -> t_U0 t = t_U0 t' ->
    map (local t) pts = map (local t') pts' -> finish t o pts u = finish t' o pts' u.
  Proof.
    intros HM HR HU HL. unfold finish. rewrite !local_map, HL, HR, HU, HM. reflexivity.
  Qed.
End Gen.

Local Open Scope R_scope.
Lemma translation_X t sh v hub U R yaw o d ps :
  WF t sh v hub U R yaw -> ground_on t o = false ->
  snd (compute_u (update_position t (lift3 (add3 hub d))) o (map (fun p => lift3 (add3 p d)) ps)) =
  snd (compute_u t o (map lift3 ps)).
Proof.
  intros H HG. set (t' := update_position t (lift3 (add3 hub d))).
  pose proof (WF_pos _ _ _ _ _ _ _ (add3 hub d) H) as H'. fold t' in H'.
  assert (HL : map (local t') (map (fun p => lift3 (add3 p d)) ps) = map (local t) (map lift3 ps)).
  { rewrite !map_map. apply map_ext. intros p.
    rewrite (local_lift _ _ _ _ _ _ _ _ H), (local_lift _ _ _ _ _ _ _ _ H').
    do 2 f_equal. apply eq3; unf; ring. }
  rewrite !compute_u_terms. change (t_gt t') with (t_gt t). destruct (t_gt t) as [gs|]; [|reflexivity].
  rewrite (terms_local t' t o gs _ (map lift3 ps)); auto.
  destruct (terms t o gs _) as [vs|]; [|reflexivity]. cbn [bind].
  rewrite (fsum_fzero_local t' t _ _ HL). f_equal. apply finish_local; auto.
Qed.

(** ** Rotation about the vertical axis through the hub *)
Lemma rotate_wind sh v s th w a : frame sh v ->
  rotate v a (wind sh v s th w) = wind sh v s (th + a) w.
Proof.
  intros HF. unfold wind. rewrite rotate_add, !rotate_scal, rotate_axis by apply HF.
  rewrite rotate_plus, (Rplus_comm a th) by apply HF. reflexivity.
Qed.
Lemma c2g_yaw sh v y a w : frame sh v ->
  mv (c2g sh v (y + a)) w = rotate v a (mv (c2g sh v y) w).
Proof.
  intros HF. rewrite !c2g_mv, rotate_plus by apply HF. rewrite (Rplus_comm a y). reflexivity.
Qed.
Lemma c2g_tr_yaw sh v y a d : frame sh v ->
  mv (mtr (N := RN) (c2g sh v (y + a))) (rotate v a d) = mv (mtr (N := RN) (c2g sh v y)) d.
Proof.
  intros HF. rewrite <- (c2g_tr_r sh v y d HF) at 1.
  rewrite <- c2g_yaw by auto. apply c2g_tr_l; auto.
Qed.
(** finite result of a finite matrix: the argument was finite *)
Lemma xadd_fin_inv a b r : xadd a b = Fin r -> is_fin a /\ is_fin b.
Proof. destruct a, b; cbn; intros; try discriminate; split; eexists; reflexivity. Qed.
Lemma xmul_fin_inv c a r : xmul (Fin c) a = Fin r -> is_fin a.
Proof.
  destruct a; cbn; intros H; try discriminate; [eexists; reflexivity| |]; unfold xinf_mul, xinf_sgn in H;
    destruct (Rltb 0 c), (Rltb c 0); discriminate.
Qed.
Lemma transform_fin_inv (M : R3 * R3 * R3) (w : xpt) q :
  transform (N := XN) (liftM M) w = lift3 q -> exists w0, w = lift3 w0.
Proof.
  destruct M as [[m0 m1] m2], w as [[w0 w1] w2]. pt3.
  unfold transform, liftM, lift3, px, py, pz; cbn [fst snd].
  change (nadd XN) with xadd. change (nmul XN) with xmul.
  intros H; injection H; intros _ _ E.
  apply xadd_fin_inv in E. destruct E as [[e E] [e2 E2]].
  apply xadd_fin_inv in E. destruct E as [[e0 E0] [e1 E1]].
  apply xmul_fin_inv in E0, E1, E2. destruct E0 as [? ->], E1 as [? ->], E2 as [? ->].
  exists (x, x0, x1). reflexivity.
Qed.

Lemma vadd_fin_inv (a : xpt) (b q : R3) : vadd (N := XN) a (lift3 b) = lift3 q -> exists a0, a = lift3 a0.
Proof.
  destruct a as [[a0 a1] a2]. pt3. unfold vadd, lift3, px, py, pz; cbn [fst snd].
  change (nadd XN) with xadd. intros H; injection H; intros E2 E1 E0.
  apply xadd_fin_inv in E0, E1, E2. destruct E0 as [[? ->] _], E1 as [[? ->] _], E2 as [[? ->] _].
  exists (x, x0, x1). reflexivity.
Qed.

Section Rot.
  Variables (t : turbine XN) (sh v hub : R3) (R yaw s th w a : R) (o : opts XN) (ps : list R3).
  Hypothesis H : WF t sh v hub (wind sh v s th w) R yaw.
  Hypothesis HG : ground_on t o = false.
  Hypothesis Hs : 0 < s.
  Hypothesis Hth : - PI < th <= PI.
  Hypothesis Htha : - PI < th + a <= PI.
  Hypothesis Hchi : t_chi t = None.
  (** the turbine and its wind turned by [a] *)
  Let t' := update_wind (update_yaw_pos t (Fin (yaw + a))) (lift3 (rotate v a (wind sh v s th w))).
  Let ps' := map (fun p => add3 hub (rotate v a (sub3 p hub))) ps.

  Lemma rot_WF : WF t' sh v hub (wind sh v s (th + a) w) R (yaw + a).
  Proof.
    unfold t'. rewrite rotate_wind by apply H. apply WF_wind with (U := wind sh v s th w).
    eapply WF_yaw; eauto.
  Qed.
  Lemma rot_local : map (local t') (map lift3 ps') = map (local t) (map lift3 ps).
  Proof.
    unfold ps'. rewrite !map_map. apply map_ext. intros p.
    rewrite (local_lift _ _ _ _ _ _ _ _ H), (local_lift _ _ _ _ _ _ _ _ rot_WF).
    f_equal. rewrite <- (c2g_tr_yaw sh v yaw a (sub3 p hub)) by apply H. f_equal.
    apply eq3; unfold add3, sub3, px, py, pz; cbn [fst snd]; ring.
  Qed.
  Lemma rot_chi : chi_now t' = chi_now t.
  Proof.
    unfold chi_now. change (t_chi t') with (t_chi t). rewrite Hchi.
    rewrite (chi_fresh_X _ _ _ _ _ _ _ _ _ H), (chi_fresh_X _ _ _ _ _ _ _ _ _ rot_WF) by auto.
    f_equal; ring.
  Qed.
  Lemma rot_terms gs : terms t' o gs (map lift3 ps') = terms t o gs (map lift3 ps).
  Proof. apply terms_local; auto. apply rot_chi. apply rot_local. Qed.

  Lemma rotation_X :
    match snd (compute_u t o (map lift3 ps)), snd (compute_u t' o (map lift3 ps')) with
    | Err e, Err e' => e = e'
    | Ok u, Ok u' =>
        len u' = len u /\
        forall i q, nth_error u i = Some (lift3 q) -> nth_error u' i = Some (lift3 (rotate v a q))
    | _, _ => False
    end.
  Proof.
    rewrite !compute_u_terms. change (t_gt t') with (t_gt t).
    destruct (t_gt t) as [gs|]; [|reflexivity].
    rewrite rot_terms. destruct (terms t o gs (map lift3 ps)) as [vs|]; [|reflexivity]. cbn [bind].
    rewrite (fsum_fzero_local t' t _ _ rot_local).
    set (u := fsum (fzero (map lift3 ps)) vs). unfold finish. rewrite !local_map, rot_local.
    change (t_R t') with (t_R t).
    set (w' := if o_no_wake o then _ else u).
    rewrite (WF_c2g _ _ _ _ _ _ _ H), (WF_c2g _ _ _ _ _ _ _ rot_WF).
    rewrite (wf_U0 _ _ _ _ _ _ _ H), (wf_U0 _ _ _ _ _ _ _ rot_WF).
    assert (P : forall x q, transform (N := XN) (liftM (c2g sh v yaw)) x = lift3 q ->
      transform (N := XN) (liftM (c2g sh v (yaw + a))) x = lift3 (rotate v a q)).
    { intros x q E. destruct (transform_fin_inv _ _ _ E) as [x0 ->].
      rewrite transform_lift in *. apply lift3_inj in E. subst q.
      rewrite c2g_yaw by apply H. reflexivity. }
    destruct (o_only_ind o).
    - split; [now rewrite !map_length|]. intros i q. rewrite !nth_error_map.
      destruct (nth_error w' i) as [x|]; [|discriminate]. cbn [option_map]. intros E; injection E; intros E'.
      f_equal. exact (P _ _ E').
    - split; [now rewrite !map_length|]. intros i q. rewrite !nth_error_map.
      destruct (nth_error w' i) as [x|]; [|discriminate]. cbn [option_map]. intros E; injection E; intros E'.
      destruct (vadd_fin_inv _ _ _ E') as [a0 E0]. rewrite (P _ _ E0). rewrite E0 in E'.
      rewrite vadd_lift in *. apply lift3_inj in E'. subst q.
      rewrite <- (rotate_wind sh v s th w a) by apply H. rewrite rotate_add. reflexivity.
  Qed.
End Rot.
