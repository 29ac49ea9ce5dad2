(** * C131: the swirl of the wake, from the circulation of the blades *)
From Coquelicot Require Import Coquelicot.
From Coq Require Import ZArith List Bool Arith Lia String Reals Lra Psatz.
From Verif Require Import Num NumR NumX Spec M_Elliptic M_Line M_Doublet M_Misc M_Cylinder M_Skewed
  M_Solver M_Turbine L_List L_Calc L_Ell L_Cyl L_X L_Turbine L_State L_Farm L_Geom L_Angles L_TurbineX L_TurbineY L_Multi L_Built L_Solver
  P_Turbine P_Line P_Skewed P_Cylinder P_Cylinder2 P_Cylinder3 P_Longi P_Grid P_Solver P_Loading P_Centre.
Import ListNotations.
Local Notation len := List.length.
Local Open Scope R_scope.

(** ** One sheet of longitudinal vorticity, in the plane of the rotor *)
(** a vector of length [k r] turning around the z axis *)
Definition turn (k : R) (q : R3) : R3 := (- (k * py q), k * px q, 0).
Lemma turn_add a b q : add3 (turn a q) (turn b q) = turn (a + b) q.
Proof. unfold add3, turn, px, py, pz. cbn [fst snd]. t3; ring. Qed.
Lemma turn_0 q : turn 0 q = zero.
Proof. unfold turn, zero. t3; ring. Qed.
Lemma add3_swap a b : add3 a b = add3 b a.
Proof. unfold add3. apply tri; ring. Qed.
Definition sheet (g Rr r : R) : R := if Rltb Rr r then g * Rr / (2 * (r * r)) else 0.
Lemma ClP_plane g Rr r P : 0 < r -> r <> Rr -> ClP g Rr r 0 P = sheet g Rr r * r.
Proof.
  intros hr NE. unfold ClP, sheet. replace (0 / (PI * sqrt (a2 r Rr 0))) with 0 by (unfold Rdiv; ring). rewrite Rmult_0_l, Rplus_0_r.
  destruct (Rlt_dec r Rr) as [L|L].
  - rewrite (proj2 (Rltb_false Rr r)) by lra. ring.
  - rewrite (proj2 (Rltb_true Rr r)) by lra. field. lra.
Qed.
Lemma longi_plane g Rr (Y : list R3) i q : 0 < Rr -> nth_error Y i = Some q -> pz q = 0 -> 0 < rho q -> rho q <> Rr ->
  nth_error (vc_longi_u (N := XN) (Fin g) (Fin Rr) false (map lift3 Y)) i = Some (lift3 (turn (sheet g Rr (rho q)) q)).
Proof.
  intros hR Hi Hz hr NE. destruct (longi_at _ any3 g Rr Y i q third1_code hR Hi) as (v & Ev & Hv). specialize (Ev false).
  destruct Hv as (P & -> & _); [apply nn_lt; auto; lra|]. cbv zeta in Ev. rewrite longi_upsi_X in Ev by auto.
  rewrite Hz, ClP_plane in Ev by auto. destruct (azim_polar q) as [PX PY].
  etransitivity; [exact Ev|]. f_equal. unfold lift3, turn. rewrite PX, PY. unfold px, py, pz. cbn [fst snd].
  xn. apply tri; f_equal; ring.
Qed.
Lemma root_plane G (Y : list R3) i q : nth_error Y i = Some q -> pz q = 0 -> 0 < rho q ->
  nth_error (vc_root_u (N := XN) (Fin G) false (map lift3 Y)) i = Some (lift3 (turn (G / (4 * PI * (rho q * rho q))) q)).
Proof.
  intros Hi Hz hr. unfold vc_root_u. rewrite !nth_error_map, Hi. cbn [option_map]. f_equal.
  assert (RR : rho q * rho q = px q * px q + py q * py q). { unfold rho. apply sqrt_sqrt. pose proof (Rsq_pos (px q)). pose proof (Rsq_pos (py q)). lra. }
  pose proof (Rmult_lt_0_compat _ _ hr hr) as H2. pose proof PI_RGT_0 as HP.
  etransitivity; [apply (straight_X G (px q) (py q) (pz q)); lra|]. rewrite Hz. change (xv ?a) with (lift3 a). f_equal.
  unfold klineR. assert (EL : length3 (px q, py q, 0) = rho q). { unfold length3, rho. f_equal. unfold inner, px, py, pz. cbn [fst snd]. ring. }
  rewrite EL. replace (inner (px q, py q, 0) ez) with 0 by (unfold inner, ez, px, py, pz; cbn [fst snd]; ring).
  unfold turn, scal3, vprod, ez, px, py, pz. cbn [fst snd]. t3; field; repeat split; lra.
Qed.
(** several sheets, added one after the other; those of intensity 0 are skipped *)
Fixpoint sheets (gs rs : list R) (r : R) : R :=
  match gs, rs with g :: gs, R0 :: rs => sheet g R0 r + sheets gs rs r | _, _ => 0 end.
Lemma vcs_longi_plane : forall (gs rs : list R) (Y : list R3) i q (u : list xpt) a,
  (forall x, In x rs -> 0 < x) -> nth_error Y i = Some q -> pz q = 0 -> 0 < rho q -> (forall x, In x rs -> rho q <> x) ->
  nth_error u i = Some (lift3 a) ->
  nth_error (fold_left (fun u (gr : XN * XN) => if nlt XN (nZ XN 0) (nabs XN (fst gr)) then fadd u (vc_longi_u (N := XN) (fst gr) (snd gr) false (map lift3 Y)) else u)
    (map2 pair (map Fin gs) (map Fin rs)) u) i = Some (lift3 (add3 a (turn (sheets gs rs (rho q)) q))).
Proof.
  induction gs as [|g gs IH]; intros [|R0 rs] Y i q u a Hp Hi Hz hr HN Hu; cbn [map map2 fold_left sheets]; try (rewrite turn_0, add3_z_r; exact Hu).
  rewrite (IH rs Y i q _ (add3 a (turn (sheet g R0 (rho q)) q))); auto.
  - f_equal. f_equal. rewrite <- turn_add. unfold add3, px, py, pz. cbn [fst snd]. t3; ring.
  - intros; apply Hp; now right.
  - intros; apply HN; now right.
  - cbn [fst snd]. change (nlt XN (nZ XN 0) (nabs XN (Fin g))) with (Rltb 0 (Rabs g)). destruct (Rltb_spec 0 (Rabs g)) as [G|G].
    + apply fadd_at; auto. apply longi_plane; auto; [apply Hp; now left|apply HN; now left].
    + assert (g = 0) as ->. { destruct (Req_dec g 0) as [E|E]; auto. apply Rabs_pos_lt in E. lra. }
      replace (sheet 0 R0 (rho q)) with 0 by (unfold sheet; destruct (Rltb R0 (rho q)); unfold Rdiv; ring). rewrite turn_0, add3_z_r. exact Hu.
Qed.

(** ** Through the interface *)
(** the longitudinal vorticity and the root vortex only, without ground effect *)
Definition swirl_only (o : opts XN) : Prop := o_tang o = false /\ o_longi o = true /\ o_root o = true /\ o_no_wake o = false.
Lemma swirl_image sh v yaw hub p k : frame sh v -> inner (sub3 p hub) (rotate v yaw sh) = 0 ->
  mv (c2g sh v yaw) (turn k (loc sh v yaw hub p)) = scal3 k (vprod (rotate v yaw sh) (sub3 p hub)).
Proof.
  intros HF HP. destruct (plane_radius sh v yaw hub p HF HP) as (Hz & _). cbv zeta in Hz.
  assert (E : sub3 p hub = mv (c2g sh v yaw) (loc sh v yaw hub p)).
  { unfold loc. symmetry. apply c2g_tr_r. auto. }
  rewrite E. set (q := loc sh v yaw hub p) in *. rewrite !c2g_mv, rotate_vprod by apply HF. rewrite <- rotate_scal. f_equal.
  rewrite Hz. destruct HF as (F1 & F2 & F3). unfold unit3, perp in *. unfold turn.
  assert (V : vprod sh (vprod v sh) = v).
  { transitivity (sub3 (scal3 (inner sh sh) v) (scal3 (inner sh v) sh)); [clear; pt3; unf; t3; ring|]. rewrite ?F1, ?F2, ?F3. clear; pt3; unf; t3; ring. }
  transitivity (add3 (scal3 (k * px q) (vprod sh (vprod v sh))) (scal3 (- (k * py q)) (vprod v sh))).
  - rewrite V. clear. unfold px, py, pz; cbn [fst snd]. pt3. unf. t3; ring.
  - clear. generalize (px q) (py q). intros x y. pt3. unf. t3; ring.
Qed.
(** what the root vortex contributes, whether or not its circulation is 0 *)
Lemma root_at t o (Gr c : R) (Y : list R3) i q (u : list xpt) a : o_root o = true -> t_Gr t = Some (Fin Gr : XN) -> Rabs c <= 1 / 10000000 ->
  nth_error Y i = Some q -> pz q = 0 -> 0 < rho q -> nth_error u i = Some (lift3 a) ->
  exists vs, root_terms t o (Fin c) [map lift3 Y] = Ok vs /\
    nth_error (fsum u vs) i = Some (lift3 (add3 a (turn (Gr / (4 * PI * (rho q * rho q))) q))).
Proof.
  intros HO HG Hc Hi Hz hr Hu. unfold root_terms. rewrite HO, HG. change (neqb XN (Fin Gr) (nZ XN 0)) with (Reqb Gr 0).
  destruct (Reqb_spec Gr 0) as [->|NZ].
  - exists []. split; auto. unfold Rdiv. rewrite Rmult_0_l, turn_0, add3_z_r. exact Hu.
  - cbn [mapM]. rewrite skewed_fin. replace (Rltb (1 / 10000000) (Rabs c)) with false by (symmetry; apply Rltb_false; lra).
    eexists. split; [reflexivity|]. unfold fsum. cbn [fold_left]. apply fadd_at; auto. apply root_plane; auto.
Qed.
Lemma rho_loc sh v yaw hub p : frame sh v -> inner (sub3 p hub) (rotate v yaw sh) = 0 -> rho (loc sh v yaw hub p) = length3 (sub3 p hub).
Proof. intros HF HP. destruct (plane_radius sh v yaw hub p HF HP) as (_ & E & _). rewrite <- E. unfold rho. f_equal. ring. Qed.

Section Interface.
  Variables (t : turbine XN) (sh v hub U : R3) (Rr yaw c Gr : R) (o : opts XN) (ps : list R3) (i : nat) (p : R3).
  Hypothesis H : WF t sh v hub U Rr yaw.
  Hypothesis HO : swirl_only o.
  Hypothesis HM : model_of t o = "VC"%string.
  Hypothesis HN : ground_on t o = false.
  Hypothesis SK : skew_is t sh v U yaw c.
  Hypothesis Hc : Rabs c <= 1 / 10000000.
  Hypothesis Hi : nth_error ps i = Some p.
  Let shaft := rotate v yaw sh.
  Let free := if o_only_ind o then zero else U.
  Let r := length3 (sub3 p hub).
  Hypothesis HP : inner (sub3 p hub) shaft = 0.
  Hypothesis hr : 0 < r.
  Hypothesis HG : t_Gr t = Some (Fin Gr : XN).
  Let q := loc sh v yaw hub p.
  Let Y := map (loc sh v yaw hub) ps.
  Lemma if_facts : frame sh v /\ rho q = r /\ pz q = 0 /\ nth_error Y i = Some q /\ (i < len (map lift3 ps))%nat.
  Proof.
    pose proof (wf_frame _ _ _ _ _ _ _ H) as HF. split; auto. split; [apply rho_loc; auto|].
    split; [apply (plane_radius sh v yaw hub p HF HP)|]. split; [unfold Y; rewrite nth_error_map, Hi; reflexivity|].
    rewrite map_length. apply nth_error_Some. rewrite Hi. discriminate.
  Qed.
  Lemma if_finish k us : nth_error us i = Some (lift3 (turn k q)) ->
    nth_error (finish t o (map lift3 ps) us) i = Some (lift3 (add3 free (scal3 k (vprod shaft (sub3 p hub))))).
  Proof.
    intros E. destruct if_facts as (HF & _). rewrite (finish_at _ _ _ _ _ _ _ _ _ _ _ _ H (proj2 (proj2 (proj2 HO))) E).
    f_equal. f_equal. unfold q. rewrite swirl_image by auto. apply add3_swap.
  Qed.
  Lemma several_at gts gls rs : t_gt t = Some (gts : list XN) -> t_gl t = Some (Some (map Fin gls : list XN)) -> t_r t = Some (map Fin rs : list XN) ->
    len gts = len rs -> len gls = len rs -> len rs <> 1%nat -> (forall x, In x rs -> 0 < x) -> (forall x, In x rs -> r <> x) ->
    exists us, snd (compute_u t o (map lift3 ps)) = Ok us /\
      nth_error us i = Some (lift3 (add3 free (scal3 (Gr / (4 * PI * (r * r)) + sheets gls rs r) (vprod shaft (sub3 p hub))))).
  Proof.
    intros ET EL ER L1 L2 L3 Hp Hx. destruct if_facts as (HF & Q1 & Q2 & Q3 & Q4).
    pose proof HO as (O1 & O2 & O3 & O4). pose proof (skew_chi _ _ _ _ _ _ _ _ H SK) as EC.
    destruct (root_at t o Gr c Y i q (fzero (map lift3 ps)) zero O3 HG Hc Q3 Q2) as (vs & EV & NV); [rewrite Q1; auto|apply fzero_at; auto|].
    assert (EM : exists w, multi_terms t o "VC" (Fin c) gts false (transform_T (T_c2g t) (t_rhub t)) (map (transform_T (T_c2g t)) (map lift3 ps)) = Ok [w] /\
              nth_error w i = Some (lift3 (turn (sheets gls rs r) q))).
    { unfold multi_terms. cbn [String.eqb Ascii.eqb Bool.eqb]. rewrite ER, EL, O1, O2. rewrite !map_length, L1, L2, !Nat.eqb_refl. cbn [negb].
      rewrite skewed_fin. replace (Rltb (1 / 10000000) (Rabs c)) with false by (symmetry; apply Rltb_false; lra). eexists. split; [reflexivity|].
      unfold vcs_longi_u, vcs_longi_u_gen. cbn [fold_left fst snd]. rewrite local_map, (loc_map _ _ _ _ _ _ _ _ H). fold Y. fold (vc_longi_u (N := XN)).
      rewrite <- (add3_z_l (turn _ q)), <- Q1. apply (vcs_longi_plane gls rs Y i q); auto; rewrite ?Q1; auto.
      apply fzero_at. rewrite map_length. exact Q4. }
    destruct EM as (w & EM & NW).
    exists (finish t o (map lift3 ps) (fsum (fzero (map lift3 ps)) (vs ++ [w]))). split.
    - rewrite compute_u_terms, ET. unfold terms. unfold ground_on in HN. unfold model_of in HM. rewrite HN, HM, EC. unfold ylist.
      rewrite local_map, (loc_map _ _ _ _ _ _ _ _ H). fold Y. rewrite EV. cbn [bind].
      destruct gts as [|g0 [|g1 gts]]; [|cbn [len] in L1; congruence|]; rewrite EM; reflexivity.
    - apply if_finish. unfold fsum in *. rewrite fold_left_app. cbn [fold_left]. rewrite <- turn_add.
      apply fadd_at; auto. rewrite NV, add3_z_l, Q1. reflexivity.
  Qed.
  Lemma one_at g gl : 0 < Rr -> t_gt t = Some [g : XN] -> t_gl t = Some (Some [Fin gl : XN]) -> r <> Rr ->
    exists us, snd (compute_u t o (map lift3 ps)) = Ok us /\
      nth_error us i = Some (lift3 (add3 free (scal3 (Gr / (4 * PI * (r * r)) + sheet gl Rr r) (vprod shaft (sub3 p hub))))).
  Proof.
    intros hR ET EL Hx. destruct if_facts as (HF & Q1 & Q2 & Q3 & Q4).
    pose proof HO as (O1 & O2 & O3 & O4). pose proof (skew_chi _ _ _ _ _ _ _ _ H SK) as EC.
    destruct (root_at t o Gr c Y i q (fzero (map lift3 ps)) zero O3 HG Hc Q3 Q2) as (vs & EV & NV); [rewrite Q1; auto|apply fzero_at; auto|].
    assert (EM : exists ws, single_terms t o "VC" (Fin c) g [map lift3 Y] = Ok ws /\ forall u a, nth_error u i = Some (lift3 a) ->
              nth_error (fsum u ws) i = Some (lift3 (add3 a (turn (sheet gl Rr r) q)))).
    { unfold single_terms, single1_terms. cbn [mapM]. rewrite O1, O2. cbn [andb bind]. unfold gl_active1. rewrite EL. cbn [negb].
      change (neqb XN (Fin gl) (nZ XN 0)) with (Reqb gl 0). destruct (Reqb_spec gl 0) as [->|NZ].
      - exists []. split; auto. intros u a Hu. replace (sheet 0 Rr r) with 0 by (unfold sheet; destruct (Rltb Rr r); unfold Rdiv; ring). rewrite turn_0, add3_z_r. exact Hu.
      - unfold cu_longi1. rewrite skewed_fin. replace (Rltb (1 / 10000000) (Rabs c)) with false by (symmetry; apply Rltb_false; lra).
        cbn [String.eqb Ascii.eqb Bool.eqb bind]. eexists. split; [reflexivity|]. intros u a Hu. unfold fsum. cbn [List.concat app fold_left].
        apply fadd_at; auto. rewrite (wf_R _ _ _ _ _ _ _ H), <- Q1. apply longi_plane; auto; rewrite Q1; auto. }
    destruct EM as (ws & EM & NW).
    exists (finish t o (map lift3 ps) (fsum (fzero (map lift3 ps)) (vs ++ ws))). split.
    - rewrite compute_u_terms, ET. unfold terms. unfold ground_on in HN. unfold model_of in HM. rewrite HN, HM, EC. unfold ylist.
      rewrite local_map, (loc_map _ _ _ _ _ _ _ _ H). fold Y. rewrite EV. cbn [bind]. rewrite EM. reflexivity.
    - apply if_finish. unfold fsum in *. rewrite fold_left_app, <- turn_add. apply NW. rewrite NV, add3_z_l, Q1. reflexivity.
  Qed.
End Interface.

(** ** What the solver stores *)
(** the circulation of the blades at a distance r from the hub: that of the first station farther than r *)
Fixpoint circ_at (rs Gs : list R) (r : R) : R :=
  match rs, Gs with r0 :: rs, G0 :: Gs => if Rltb r r0 then G0 else circ_at rs Gs r | _, _ => 0 end.
Definition increasing (rs : list R) : Prop := forall i, (S i < len rs)%nat -> nth i rs 0 < nth (S i) rs 0.
Definition gl_of (Gs rs : list R) : list R := map2 (fun g r => g / (2 * PI * r)) (gtilde (N := RN) Gs) rs.
Lemma incr_tl a rs : increasing (a :: rs) -> increasing rs.
Proof. intros H i Hi. apply (H (S i)). cbn [len]. lia. Qed.
Lemma incr_hd a rs x : increasing (a :: rs) -> In x rs -> a < x.
Proof.
  revert a. induction rs as [|b rs IH]; intros a H [].
  - subst x. apply (H O). cbn [len]. lia.
  - apply Rlt_trans with b; [apply (H O); cbn [len]; lia|]. apply IH; auto. eapply incr_tl; eauto.
Qed.
Lemma circ_below rs Gs r : (forall x, In x rs -> r < x) -> len Gs = len rs -> circ_at rs Gs r = hd 0 Gs.
Proof.
  destruct rs as [|a rs], Gs as [|g Gs]; intros H L; try discriminate; [reflexivity|]. cbn [circ_at hd].
  rewrite (proj2 (Rltb_true r a)) by (apply H; now left). reflexivity.
Qed.
Lemma gt_cons a b l : gtilde (N := RN) (a :: b :: l) = (a - b) :: gtilde (N := RN) (b :: l).
Proof. reflexivity. Qed.
Lemma sheets_out rs gs r : (forall x, In x rs -> r < x) -> sheets gs rs r = 0.
Proof.
  revert gs. induction rs as [|a rs IH]; intros [|g gs] H; try reflexivity. cbn [sheets]. rewrite IH by (intros; apply H; now right).
  unfold sheet. rewrite (proj2 (Rltb_false a r)) by (left; apply H; now left). ring.
Qed.
Lemma sheets_sum : forall rs Gs r, len Gs = len rs -> 0 < r -> increasing rs -> (forall x, In x rs -> 0 < x) -> (forall x, In x rs -> r <> x) ->
  sheets (gl_of Gs rs) rs r = (hd 0 Gs - circ_at rs Gs r) / (4 * PI * (r * r)).
Proof.
  pose proof PI_RGT_0 as HP.
  induction rs as [|a rs IH]; intros [|g Gs] r L hr HI Hp Hx; try discriminate; [unfold gl_of; cbn; field; lra|].
  cbn [circ_at hd]. destruct (Rltb_spec r a) as [A|A].
  - rewrite sheets_out; [unfold Rminus; rewrite Rplus_opp_r; unfold Rdiv; ring|]. intros x [<-|Hx']; auto. apply Rlt_trans with a; auto. eapply incr_hd; eauto.
  - assert (a < r) by (pose proof (Hx a (or_introl eq_refl)); lra). pose proof (Hp a (or_introl eq_refl)) as ha.
    destruct Gs as [|g1 Gs].
    + destruct rs; [|discriminate]. unfold gl_of. change (gtilde (N := RN) [g]) with [g - 0]. cbn [map2 sheets circ_at]. unfold sheet. rewrite (proj2 (Rltb_true a r)) by auto. field. repeat split; lra.
    + unfold gl_of. rewrite gt_cons. cbn [map2 sheets]. change (map2 (fun g0 r0 : R => g0 / (2 * PI * r0)) (gtilde (N := RN) (g1 :: Gs)) rs) with (gl_of (g1 :: Gs) rs).
      rewrite IH; [|cbn [len] in *; lia|auto|eapply incr_tl; eauto|intros; apply Hp; now right|intros; apply Hx; now right].
      cbn [hd]. unfold sheet. rewrite (proj2 (Rltb_true a r)) by auto. field. repeat split; lra.
Qed.
Lemma swirl_wake rs Gs Rr U0 Om rc : good rs Gs Rr U0 Om None rc -> (forall x, In x rs -> 0 < x) ->
  exists w, discr rs Gs Rr U0 Om 1 true true true None = Ok w /\ len (w_gt w) = len rs /\
    w_gl w = Some (map Fin (gl_of Gs rs)) /\ w_Gr w = Some (Fin (- hd 0 Gs) : XN) /\ len (gl_of Gs rs) = len rs.
Proof.
  intros HG Hp. destruct (C32_finite_with_swirl_partial rs Gs Rr U0 Om 1 true None rc HG) as (w & EW & LW & _).
  pose proof (good_cyl _ _ _ _ _ _ _ HG) as ER. subst rc. destruct HG as [_ H1 H2 H3 H4 H5 H6 H7].
  exists w. split; auto. split; auto.
  assert (D : exists w', discr rs Gs Rr U0 Om 1 true true true None = Ok w' /\ w_gl w' = Some (map2 (fun g r : XN => ndiv XN g (nmul XN (nmul XN (nZ XN 2) (npi XN)) r)) (gtilde (N := XN) (GX Gs 1)) (map Fin rs)) /\
      w_Gr w' = Some (nopp XN (hd NaN (GX Gs 1)))).
  { eexists. split; [apply (discr_ok rs Gs Rr U0 Om 1 None) with (bS := true) (bT := true) (bH := true); assumption|]. split; reflexivity. }
  destruct D as (w' & E' & D1 & D2). assert (w' = w) by congruence. subst w'. rewrite D1, D2. clear D1 D2 E'.
  assert (EG : GX Gs 1 = map Fin Gs).
  { unfold GX. rewrite !map_map. apply map_ext. intros g. xn. f_equal. ring. }
  rewrite EG, gtilde_X. split; [|split].
  - f_equal. apply (map2_fin (fun g r : XN => ndiv XN g (nmul XN (nmul XN (nZ XN 2) (npi XN)) r)) (fun g r => g / (2 * PI * r))).
    intros i a b Ha Hb. xn. apply xdiv_fin. apply nth_error_In in Hb. pose proof PI_RGT_0. pose proof (Hp b Hb).
    apply Rmult_integral_contrapositive_currified; lra.
  - f_equal. destruct Gs as [|g Gs]; [destruct rs; [congruence|discriminate]|reflexivity].
  - assert (LG : len (gtilde (N := RN) Gs) = len rs) by (etransitivity; [apply (gtilde_len RN)|auto]).
    unfold gl_of. rewrite map2_length_eq; auto.
Qed.
(** loading a turbine with a circulation, at a tip-speed ratio for which the solver accounts for the rotation of the wake *)
Lemma load_swirl minim t sh v hub U Rr yaw rs Gs l : WF t sh v hub U Rr yaw -> 0 < Rr -> 0 < length3 U -> 0 < l < 20 ->
  rs <> [] -> len Gs = len rs -> increasing rs -> (forall x, In x rs -> 0 < x) -> (len rs = 1%nat -> nth 0 rs 0 <= Rr) ->
  exists t' gts, update_loading minim (Some (map Fin rs : list XN)) None (Some (map Fin Gs : list XN)) (Some (Fin l : XN)) None None t = (t', Ok tt) /\
    t_gt t' = Some (gts : list XN) /\ len gts = len rs /\ t_gl t' = Some (Some (map Fin (gl_of Gs rs) : list XN)) /\ t_Gr t' = Some (Fin (- hd 0 Gs) : XN) /\
    t_r t' = Some (map Fin rs : list XN) /\ len (gl_of Gs rs) = len rs /\ t_chi t' = t_chi t /\ t_ground t' = t_ground t /\ t_model t' = t_model t.
Proof.
  intros H hR hU Hl Hne HG HI Hp H1. set (Un := length3 U) in *. set (Om := l * Un / Rr).
  assert (hO : 0 < Om) by (unfold Om; apply Rdiv_lt_0_compat; auto; apply Rmult_lt_0_compat; lra).
  assert (P0 : 0 < nth 0 rs 0) by (apply Hp; destruct rs; [congruence|now left]).
  destruct (C35_cylinders_enclose rs Rr Hne HI P0 H1) as (rc & _ & _ & _ & _ & GD).
  specialize (GD Gs Un Om HG ltac:(lra) ltac:(lra)).
  destruct (swirl_wake rs Gs Rr Un Om rc GD Hp) as (w & EW & L1 & E1 & E2 & L2).
  assert (EO : ndiv XN (nmul XN (Fin l) (Fin Un)) (Fin Rr) = Fin Om) by (xn; apply xdiv_fin; lra).
  assert (EW' : WakeVorticityFromGamma (N := XN) (map Fin rs) (map Fin Gs) (Fin Rr) (Fin Un) (Fin Om) = Ok w).
  { unfold WakeVorticityFromGamma. change (omega_fix (N := XN) (Fin Om)) with (Fin Om).
    replace (nlt XN (ndiv XN (nmul XN (Fin Om) (Fin Rr)) (Fin Un)) (nZ XN 20)) with true; [exact EW|]. xn. rewrite xdiv_fin by lra. symmetry. apply Rltb_true.
    unfold Om. replace (l * Un / Rr * Rr / Un) with l by (field; lra). lra. }
  unfold update_loading. rewrite (wf_R _ _ _ _ _ _ _ H), (wf_U0 _ _ _ _ _ _ _ H), norm_lift. fold Un.
  cbn [load_interp]. unfold mbind, mlift, massign. cbn [need bind]. rewrite EO, EW'.
  eexists _, (w_gt w). split; [reflexivity|]. cbn [t_gt t_gl t_Gr t_r t_chi t_ground t_model set_Ct set_r set_Lambda set_Gr set_gl set_gt]. rewrite E1, E2. repeat split; auto.
Qed.

(** ** C131 *)
(** In the plane of the rotor of a turbine loaded with several circulation stations, the longitudinal vorticity and the root vortex
    together turn the air by minus the circulation of the blades at that distance from the hub, divided by 4 pi r; beyond the last station
    there is no swirl *)
Theorem C131_swirl_of_circulation_partial : forall minim t sh v hub U Rr yaw rs Gs l,
  built minim t sh v hub U Rr yaw -> 0 < Rr -> 0 < length3 U -> 0 < l < 20 ->
  (2 <= len rs)%nat -> len Gs = len rs -> increasing rs -> (forall x, In x rs -> 0 < x) ->
  exists t', update_loading minim (Some (map Fin rs : list XN)) None (Some (map Fin Gs : list XN)) (Some (Fin l : XN)) None None t = (t', Ok tt) /\
    forall o c (ps : list R3) i p, swirl_only o -> model_of t o = "VC"%string -> ground_on t o = false ->
      skew_is t sh v U yaw c -> Rabs c <= 1 / 10000000 -> nth_error ps i = Some p ->
      let shaft := rotate v yaw sh in let free := if o_only_ind o then zero else U in
      let r := length3 (sub3 p hub) in
      inner (sub3 p hub) shaft = 0 -> 0 < r -> (forall x, In x rs -> r <> x) ->
      exists us w, snd (compute_u t' o (map lift3 ps)) = Ok us /\ nth_error us i = Some (lift3 w) /\
        w = add3 free (scal3 (- circ_at rs Gs r / (4 * PI * r ^ 2)) (vprod shaft (sub3 p hub))) /\
        length3 (sub3 w free) = Rabs (circ_at rs Gs r) / (4 * PI * r) /\
        ((forall x, In x rs -> x < r) -> w = free).
Proof.
  intros minim t sh v hub U Rr yaw rs Gs l HB hR hU Hl H2 HG HI Hp. pose proof (built_WF _ _ _ _ _ _ _ _ HB) as H. pose proof PI_RGT_0 as HPI.
  destruct (load_swirl minim t sh v hub U Rr yaw rs Gs l H hR hU Hl) as (t' & gts & EL & E1 & E2 & E3 & E4 & E5 & E6 & E7 & E8 & E9); auto.
  { intros ->. cbn in H2. lia. } { intros E. lia. }
  exists t'. split; auto. intros o c ps i p HO HM HN SK Hc Hi shaft free r HP hr Hx.
  assert (HB' : built minim t' sh v hub U Rr yaw) by (replace t' with (fst (t', @Ok unit tt)) by reflexivity; rewrite <- EL; apply b_load; auto).
  pose proof (built_WF _ _ _ _ _ _ _ _ HB') as H'.
  destruct (several_at t' sh v hub U Rr yaw c (- hd 0 Gs) o ps i p H' HO) with (gts := gts) (gls := gl_of Gs rs) (rs := rs) as (us & EU & NU); auto; try lia.
  { unfold model_of in *. rewrite E9. auto. } { unfold ground_on in *. rewrite E8. auto. } { unfold skew_is in *. rewrite E7. auto. }
  fold r shaft free in NU. rewrite sheets_sum in NU by auto.
  replace (- hd 0 Gs / (4 * PI * (r * r)) + (hd 0 Gs - circ_at rs Gs r) / (4 * PI * (r * r))) with (- circ_at rs Gs r / (4 * PI * r ^ 2)) in NU by (field; lra).
  exists us. eexists. split; [exact EU|]. split; [exact NU|]. split; [reflexivity|]. split.
  - set (k := - circ_at rs Gs r / (4 * PI * r ^ 2)).
    replace (sub3 (add3 free (scal3 k (vprod shaft (sub3 p hub)))) free) with (scal3 k (vprod shaft (sub3 p hub))) by (unfold sub3, add3, scal3, px, py, pz; cbn [fst snd]; apply tri; ring).
    rewrite length3_scal. assert (HF : frame sh v) by (apply (wf_frame _ _ _ _ _ _ _ H)).
    assert (LV : length3 (vprod shaft (sub3 p hub)) = r).
    { unfold length3. unfold r, length3. f_equal. assert (US : inner shaft shaft = 1) by (unfold shaft; rewrite rotate_inner by apply HF; apply HF).
      transitivity (inner shaft shaft * inner (sub3 p hub) (sub3 p hub) - inner (sub3 p hub) shaft * inner (sub3 p hub) shaft).
      - generalize (sub3 p hub) shaft. clear. intros a b. destruct a as [[? ?] ?], b as [[? ?] ?]. unfold inner, vprod, px, py, pz. cbn [fst snd]. ring.
      - rewrite US, HP. ring. }
    rewrite LV. unfold k. unfold Rdiv. rewrite Rabs_mult, Rabs_Ropp, (Rabs_right (/ (4 * PI * r ^ 2))); [field; lra|].
    apply Rle_ge, Rlt_le, Rinv_0_lt_compat. pose proof (Rmult_lt_0_compat _ _ hr hr). replace (r ^ 2) with (r * r) by ring. apply Rmult_lt_0_compat; lra.
  - intros HL. assert (C0 : circ_at rs Gs r = 0).
    { clear - HL. revert Gs. induction rs as [|a rs IH]; intros [|g Gs]; try reflexivity. cbn [circ_at]. rewrite (proj2 (Rltb_false r a)) by (left; apply HL; now left).
      apply IH. intros; apply HL; now right. }
    rewrite C0. unfold scal3, add3, px, py, pz. cbn [fst snd]. unfold Rdiv. destruct free as [[? ?] ?]. cbn [fst snd]. apply tri; ring.
Qed.
(** The default of a single cylinder (nCyl = 1): inside the rotor the same law holds with the mean circulation, but outside there remains a swirl of
    (1/0.995 - 1) of the mean circulation: the strength is computed with the radius of the station, 0.995 R, and used on a cylinder of radius R *)
Theorem C131_one_cylinder_refuted : forall minim t sh v hub U Rr yaw rs Gs l,
  built minim t sh v hub U Rr yaw -> 0 < Rr -> 0 < length3 U -> 0 < l < 20 -> Gs <> [] ->
  let G := lsum Gs / INR (len Gs) in
  exists t', update_loading minim rs None (Some (map Fin Gs : list XN)) (Some (Fin l : XN)) (Some 1%nat) None t = (t', Ok tt) /\
    forall o c (ps : list R3) i p, swirl_only o -> model_of t o = "VC"%string -> ground_on t o = false ->
      skew_is t sh v U yaw c -> Rabs c <= 1 / 10000000 -> nth_error ps i = Some p ->
      let shaft := rotate v yaw sh in let free := if o_only_ind o then zero else U in
      let r := length3 (sub3 p hub) in
      inner (sub3 p hub) shaft = 0 -> 0 < r -> r <> Rr ->
      exists us w, snd (compute_u t' o (map lift3 ps)) = Ok us /\ nth_error us i = Some (lift3 w) /\
        w = add3 free (scal3 ((if Rltb r Rr then - G else G * (1000 / 995 - 1)) / (4 * PI * r ^ 2)) (vprod shaft (sub3 p hub))) /\
        (Rr < r -> G <> 0 -> w <> free).
Proof.
  intros minim t sh v hub U Rr yaw rs0 Gs l HB hR hU Hl HG G. pose proof (built_WF _ _ _ _ _ _ _ _ HB) as H. pose proof PI_RGT_0 as HPI.
  assert (EI : update_loading minim rs0 None (Some (map Fin Gs : list XN)) (Some (Fin l : XN)) (Some 1%nat) None t =
          update_loading minim (Some (map Fin [995 / 1000 * Rr] : list XN)) None (Some (map Fin [G] : list XN)) (Some (Fin l : XN)) None None t).
  { unfold update_loading. cbn [load_interp option_map]. rewrite (wf_R _ _ _ _ _ _ _ H), (np_mean_fin Gs HG). reflexivity. }
  rewrite EI.
  destruct (load_swirl minim t sh v hub U Rr yaw [995 / 1000 * Rr] [G] l H hR hU Hl) as (t' & gts & EL & E1 & E2 & E3 & E4 & E5 & E6 & E7 & E8 & E9); auto.
  { discriminate. } { intros i Hi. cbn [len] in Hi. lia. } { intros x [<-|[]]. lra. } { intros _. cbn [nth]. lra. }
  exists t'. split; auto. intros o c ps i p HO HM HN SK Hc Hi shaft free r HP hr Hx.
  assert (HB' : built minim t' sh v hub U Rr yaw) by (replace t' with (fst (t', @Ok unit tt)) by reflexivity; rewrite <- EL; apply b_load; auto).
  pose proof (built_WF _ _ _ _ _ _ _ _ HB') as H'.
  destruct gts as [|g [|]]; try discriminate.
  destruct (one_at t' sh v hub U Rr yaw c (- hd 0 [G]) o ps i p H' HO) with (g := g) (gl := (G - 0) / (2 * PI * (995 / 1000 * Rr))) as (us & EU & NU); auto.
  { unfold model_of in *. rewrite E9. auto. } { unfold ground_on in *. rewrite E8. auto. } { unfold skew_is in *. rewrite E7. auto. }
  fold r shaft free in NU. cbn [hd] in NU.
  assert (EK : - G / (4 * PI * (r * r)) + sheet ((G - 0) / (2 * PI * (995 / 1000 * Rr))) Rr r = (if Rltb r Rr then - G else G * (1000 / 995 - 1)) / (4 * PI * r ^ 2)).
  { unfold sheet. destruct (Rltb_spec r Rr) as [A|A].
    - rewrite (proj2 (Rltb_false Rr r)) by lra. field. lra.
    - rewrite (proj2 (Rltb_true Rr r)) by lra. field. repeat split; lra. }
  rewrite EK in NU. exists us. eexists. split; [exact EU|]. split; [exact NU|]. split; [reflexivity|]. intros HL NZ. clear EK.
  rewrite (proj2 (Rltb_false r Rr)) by lra. set (k := G * (1000 / 995 - 1) / (4 * PI * r ^ 2)).
  assert (K0 : k <> 0).
  { unfold k. apply Rmult_integral_contrapositive_currified; [apply Rmult_integral_contrapositive_currified; lra|]. apply Rinv_neq_0_compat.
    apply Rmult_integral_contrapositive_currified; [lra|]. apply pow_nonzero. lra. }
  intros E. assert (VZ : scal3 k (vprod shaft (sub3 p hub)) = zero).
  { apply (f_equal (fun x => sub3 x free)) in E. revert E. generalize (scal3 k (vprod shaft (sub3 p hub))). intros [[x y] z]. destruct free as [[a b] d]. unfold sub3, add3, zero, px, py, pz. cbn [fst snd].
    intros E. injection E as A B C. apply tri; lra. }
  assert (HF : frame sh v) by (apply (wf_frame _ _ _ _ _ _ _ H)).
  assert (US : inner shaft shaft = 1) by (unfold shaft; rewrite rotate_inner by apply HF; apply HF).
  assert (LV : inner (vprod shaft (sub3 p hub)) (vprod shaft (sub3 p hub)) = r * r).
  { transitivity (inner shaft shaft * inner (sub3 p hub) (sub3 p hub) - inner (sub3 p hub) shaft * inner (sub3 p hub) shaft).
    - generalize (sub3 p hub) shaft. clear. intros a b. destruct a as [[? ?] ?], b as [[? ?] ?]. unfold inner, vprod, px, py, pz. cbn [fst snd]. ring.
    - rewrite US, HP. unfold r. unfold length3. rewrite sqrt_sqrt by apply inner_pos. ring. }
  assert (Z : k * k * (r * r) = 0).
  { rewrite <- LV. transitivity (inner (scal3 k (vprod shaft (sub3 p hub))) (scal3 k (vprod shaft (sub3 p hub)))).
    - rewrite inner_scal_l, L_Built.inner_scal_r. ring.
    - rewrite VZ. unfold inner, zero, px, py, pz. cbn [fst snd]. ring. }
  pose proof (Rmult_lt_0_compat _ _ hr hr). pose proof (Rsq_lt k K0). pose proof (Rmult_lt_0_compat (k * k) (r * r)). lra.
Qed.
(** the hypotheses are met: a 50 m rotor facing a 10 m/s wind, stations at 20 and 40 m; at 30 m from the hub the blades carry the circulation of the
    second station *)
Definition wt_sw : turbine XN := new_turbine (N := XN) (Fin 50) (lift3 (0, 0, 90)) (lift3 (1, 0, 0)) (lift3 (0, 0, 1)) (lift3 (wind (1,0,0) (0,0,1) 10 0 0)) None (Some (Fin 8)) "" false "VC".
Definition swirl_opts : opts XN := {| o_only_ind := true; o_longi := true; o_tang := false; o_root := true; o_no_wake := false; o_ground := None; o_Model := None; o_far := (Fin 6 : XN) |}.
Example C131_case : forall minim,
  built minim wt_sw (1,0,0) (0,0,1) (0,0,90) (wind (1,0,0) (0,0,1) 10 0 0) 50 0 /\ 0 < length3 (wind (1,0,0) (0,0,1) 10 0 0) /\
  skew_is wt_sw (1,0,0) (0,0,1) (wind (1,0,0) (0,0,1) 10 0 0) 0 0 /\ swirl_only swirl_opts /\ ground_on wt_sw swirl_opts = false /\ model_of wt_sw swirl_opts = "VC"%string /\
  increasing [20; 40] /\ (forall x, In x [20; 40] -> 0 < x) /\
  inner (sub3 (0, 30, 90) (0, 0, 90)) (rotate (0,0,1) 0 (1,0,0)) = 0 /\ length3 (sub3 (0, 30, 90) (0, 0, 90)) = 30 /\ circ_at [20; 40] [300; 100] 30 = 100 /\
  exists t' us w, update_loading minim (Some (map Fin [20; 40] : list XN)) None (Some (map Fin [300; 100] : list XN)) (Some (Fin 8 : XN)) None None wt_sw = (t', Ok tt) /\
    snd (compute_u t' swirl_opts (map lift3 [(0, 30, 90)])) = Ok us /\ nth_error us 0 = Some (lift3 w) /\ length3 (sub3 w zero) = 100 / (4 * PI * 30).
Proof.
  intros minim. pose proof PI_RGT_0 as HP.
  assert (HF : frame (1,0,0) (0,0,1)) by (repeat split; unfold unit3, perp, inner, px, py, pz; cbn [fst snd]; ring).
  assert (B : built minim wt_sw (1,0,0) (0,0,1) (0,0,90) (wind (1,0,0) (0,0,1) 10 0 0) 50 0) by (apply b_new; auto).
  assert (LU : length3 (wind (1,0,0) (0,0,1) 10 0 0) = 10).
  { unfold wind. rewrite rotate_frame by auto. unfold length3. transitivity (sqrt (10 * 10)); [f_equal|apply sqrt_square; lra]. rewrite cos_0, sin_0. unf; ring. }
  assert (SK : skew_is wt_sw (1,0,0) (0,0,1) (wind (1,0,0) (0,0,1) 10 0 0) 0 0) by (right; split; [reflexivity|]; exists 10, 0, 0; repeat split; lra).
  assert (SO : swirl_only swirl_opts) by (repeat split). assert (IN : increasing [20; 40]) by (intros [|[|]] Hi; cbn in *; try lia; lra).
  assert (PS : forall x, In x [20; 40] -> 0 < x) by (intros x [<-|[<-|[]]]; lra).
  assert (E1 : inner (sub3 (0, 30, 90) (0, 0, 90)) (rotate (0,0,1) 0 (1,0,0)) = 0) by (rewrite rotate_frame by auto; rewrite cos_0, sin_0; unf; ring).
  assert (E2 : length3 (sub3 (0, 30, 90) (0, 0, 90)) = 30).
  { unfold length3. transitivity (sqrt (30 * 30)); [f_equal; unf; ring|apply sqrt_square; lra]. }
  assert (E3 : circ_at [20; 40] [300; 100] 30 = 100).
  { cbn [circ_at]. rewrite (proj2 (Rltb_false 30 20)), (proj2 (Rltb_true 30 40)) by lra. reflexivity. }
  do 11 (split; [auto; try lra|]).
  destruct (C131_swirl_of_circulation_partial minim wt_sw (1,0,0) (0,0,1) (0,0,90) (wind (1,0,0) (0,0,1) 10 0 0) 50 0 [20; 40] [300; 100] 8) as (t' & EL & HT); auto; try lra.
  destruct (HT swirl_opts 0 [(0, 30, 90)] O (0, 30, 90)) as (us & w & A1 & A2 & A3 & A4 & A5); auto.
  - rewrite Rabs_R0. lra.
  - rewrite E2. lra.
  - rewrite E2. intros x [<-|[<-|[]]]; lra.
  - exists t', us, w. split; auto. split; auto. split; auto. rewrite E2, E3 in A4. change (if o_only_ind swirl_opts then zero else wind (1,0,0) (0,0,1) 10 0 0) with zero in A4. rewrite A4. rewrite Rabs_right by lra. reflexivity.
Qed.
