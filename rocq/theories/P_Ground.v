(** * C26: the ground plane *)
From Coq Require Import ZArith List Bool Arith Lia String Reals Lra Psatz.
From Verif Require Import Num NumR NumX Spec M_Elliptic M_Line M_Doublet M_Misc M_Cylinder M_Skewed
  M_Solver M_Turbine L_List L_Calc L_X L_Turbine L_State L_Farm L_Geom L_Angles L_TurbineX L_TurbineY L_Multi L_Built P_Turbine P_Line P_Cylinder2.
Import ListNotations.
Local Notation len := List.length.
Local Open Scope R_scope.

(** ** reflections *)
Definition flip_y (q : R3) : R3 := (px q, - py q, pz q).
Definition negy (w : xpt) : xpt := let '(x, y, z) := w in (x, xopp y, z).
Definition negx (w : xpt) : xpt := let '(x, y, z) := w in (xopp x, y, z).
Lemma atan2_flip y x : cos (Ratan2 (- y) x) = cos (Ratan2 y x) /\ sin (Ratan2 (- y) x) = - sin (Ratan2 y x).
Proof.
  destruct (Req_dec (x * x + y * y) 0) as [Z|Z].
  - assert (x = 0) by nra. assert (y = 0) by nra. subst. rewrite Ropp_0. split; auto.
    assert (S : Ratan2 0 0 = 0). { unfold Ratan2, Rltb, Reqb. repeat (match goal with |- context [Rlt_dec ?a ?b] => destruct (Rlt_dec a b) | |- context [Rle_dec ?a ?b] => destruct (Rle_dec a b) | |- context [Req_EM_T ?a ?b] => destruct (Req_EM_T a b) end; try lra). }
    rewrite S, sin_0. ring.
  - rewrite !Ratan2_cos, !Ratan2_sin by (try replace (- y * - y) with (y * y) by ring; auto).
    replace (- y * - y) with (y * y) by ring. split; [reflexivity|]. unfold Rdiv. ring.
Qed.
Lemma xinf_mul_opp b y : xinf_mul b (- y) = xopp (xinf_mul b y).
Proof.
  unfold xinf_mul. destruct (Rltb_spec 0 (- y)), (Rltb_spec 0 y), (Rltb_spec (- y) 0), (Rltb_spec y 0); try lra; destruct b; reflexivity.
Qed.
Lemma xinf_mul_negb b y : xinf_mul (negb b) y = xopp (xinf_mul b y).
Proof. unfold xinf_mul. destruct (Rltb 0 y), (Rltb y 0), b; reflexivity. Qed.
Lemma xmul_opp_r a b : xmul a (xopp b) = xopp (xmul a b).
Proof.
  destruct a, b; cbn; auto; try (f_equal; ring); try apply xinf_mul_opp; try (apply (xinf_mul_negb true)); try (apply (xinf_mul_negb false)).
Qed.
Lemma xmul_comm' a b : xmul a b = xmul b a.
Proof. destruct a, b; cbn; auto. f_equal; ring. Qed.
Lemma xmul_opp_l a b : xmul (xopp a) b = xopp (xmul a b).
Proof. rewrite xmul_comm', xmul_opp_r, xmul_comm'. reflexivity. Qed.
Lemma xadd_opp a b : xadd (xopp a) (xopp b) = xopp (xadd a b).
Proof. destruct a, b; cbn; auto. f_equal; ring. Qed.
Lemma xsub_opp a b : xsub (xopp a) (xopp b) = xopp (xsub a b).
Proof. destruct a, b; cbn; auto. f_equal; ring. Qed.
Lemma xopp_opp a : xopp (xopp a) = a.
Proof. destruct a; cbn; auto. f_equal; ring. Qed.

Lemma vadd_negy a b : vadd (N := XN) (negy a) (negy b) = negy (vadd (N := XN) a b).
Proof. destruct a as [[? ?] ?], b as [[? ?] ?]. unfold vadd, negy. change (nadd XN) with xadd. rewrite xadd_opp. reflexivity. Qed.
Lemma fadd_map_negy : forall a b, fadd (N := XN) (map negy a) (map negy b) = map negy (fadd (N := XN) a b).
Proof.
  unfold fadd. intros a b. rewrite map2_map_l, map2_map_r, map_map2. apply map2_ext. intros. apply vadd_negy.
Qed.
Lemma fzero_negy (pts : list xpt) : map negy (fzero (N := XN) pts) = fzero (N := XN) pts.
Proof. unfold fzero. rewrite map_map. apply map_ext. intros _. unfold negy. cbn. rewrite Ropp_0. reflexivity. Qed.
Lemma fsum_negy (pts : list xpt) T : forall u, fsum (N := XN) (map negy u) (map (map negy) T) = map negy (fsum (N := XN) u T).
Proof.
  unfold fsum. induction T as [|a T IH]; intros u; auto. cbn [map fold_left]. rewrite fadd_map_negy. apply IH.
Qed.
Lemma fsum_acc (pts : list xpt) T : forall u w, fsum (N := XN) (fadd (N := XN) u w) T = fadd (N := XN) u (fsum (N := XN) w T).
Proof.
  unfold fsum. induction T as [|a T IH]; intros u w; auto. cbn [fold_left]. rewrite faddX_assoc. apply IH.
Qed.
Lemma faddX_0_r (u pts : list xpt) : len u = len pts -> fadd (N := XN) u (fzero (N := XN) pts) = u.
Proof. intros. rewrite faddX_comm. apply faddX_0_l. auto. Qed.
Lemma fsum_both (pts : list xpt) T : Forall (fun v => len v = len pts) T ->
  let S := fsum (N := XN) (fzero (N := XN) pts) T in
  fsum (N := XN) S (map (map negy) T) = fadd (N := XN) S (map negy S) /\ len S = len pts.
Proof.
  intros HL S. assert (LS : len S = len pts).
  { unfold S, fsum. clear S. assert (G : forall u, len u = len pts -> len (fold_left (fadd (N := XN)) T u) = len pts).
    { induction HL as [|a T Ha _ IH]; intros u Lu; auto. cbn. apply IH. rewrite fadd_length; lia. }
    apply G. apply fzero_length. }
  split; auto. rewrite <- (faddX_0_r S pts LS) at 1. rewrite (fsum_acc pts). f_equal. unfold S. rewrite <- (fsum_negy pts). rewrite fzero_negy. reflexivity.
Qed.

(** ** flipping the points flips the kernels *)
Lemma lift_flip L : map lift3 (map flip_y L) = map (fun q => negy (lift3 q)) L.
Proof. rewrite map_map. apply map_ext. intros [[? ?] ?]. reflexivity. Qed.
Lemma rz_flip (q : R3) : (vc_r (N := XN) (lift3 (flip_y q)), snd (lift3 (flip_y q))) = (vc_r (N := XN) (lift3 q), snd (lift3 q)).
Proof. destruct q as [[x y] z]. unfold lift3, flip_y, vc_r, px, py, pz. cbn. replace (- y * - y) with (y * y) by ring. reflexivity. Qed.
Lemma polar_flip PIb g R eps (L : list R3) :
  vc_tang_polar_gen (N := XN) PIb g R eps (map lift3 (map flip_y L)) = vc_tang_polar_gen (N := XN) PIb g R eps (map lift3 L).
Proof.
  unfold vc_tang_polar_gen. assert (E : map (fun p : xpt => (vc_r (N := XN) p, snd p)) (map lift3 (map flip_y L)) = map (fun p : xpt => (vc_r (N := XN) p, snd p)) (map lift3 L)).
  { rewrite !map_map. apply map_ext. intros. apply rz_flip. }
  rewrite E. reflexivity.
Qed.
Lemma cart_flip (q : R3) u : cart_of_polar2 (N := XN) (lift3 (flip_y q)) u = negy (cart_of_polar2 (N := XN) (lift3 q) u).
Proof.
  destruct q as [[x y] z]. unfold cart_of_polar2, lift3, flip_y, px, py, pz, negy. cbn [fst snd].
  destruct (atan2_flip y x) as [C S]. change (nmul XN) with xmul. cbn. rewrite C, S.
  change (Fin (- sin (Ratan2 y x))) with (xopp (Fin (sin (Ratan2 y x)))). rewrite xmul_opp_r. reflexivity.
Qed.
Lemma cart2_flip L us : map2 (cart_of_polar2 (N := XN)) (map lift3 (map flip_y L)) us = map negy (map2 (cart_of_polar2 (N := XN)) (map lift3 L) us).
Proof.
  rewrite map_map, map_map2, !map2_map_l. apply map2_ext. intros. apply cart_flip.
Qed.
Lemma tang_flip g R L : vc_tang_u (N := XN) g R (Fin 0) (map lift3 (map flip_y L)) = map negy (vc_tang_u (N := XN) g R (Fin 0) (map lift3 L)).
Proof. unfold vc_tang_u, vc_tang_u_gen. rewrite polar_flip. apply cart2_flip. Qed.
Lemma cut_flip cut R (q : R3) : vc_ff_cut (N := XN) cut R (lift3 (flip_y q)) = vc_ff_cut (N := XN) cut R (lift3 q).
Proof. destruct q as [[x y] z]. unfold vc_ff_cut, lift3, flip_y, px, py, pz. cbn. replace (- y * - y) with (y * y) by ring. reflexivity. Qed.
Lemma gather_map {A B} (f : A -> B) mask l : gather mask (map f l) = map f (gather mask l).
Proof. revert l; induction mask as [|[] mask IH]; intros [|a l]; cbn; auto. f_equal; auto. Qed.
Lemma ff_flip g R cut L : vc_tang_u_doublet (N := XN) g R cut (map lift3 (map flip_y L)) =
  (let* v := vc_tang_u_doublet (N := XN) g R cut (map lift3 L) in Ok (map negy v)).
Proof.
  unfold vc_tang_u_doublet, vc_tang_u_doublet_gen, vc_tang_doublet_polar_gen.
  assert (E1 : map (vc_ff_cut (N := XN) cut R) (map lift3 (map flip_y L)) = map (vc_ff_cut (N := XN) cut R) (map lift3 L)).
  { rewrite !map_map. apply map_ext. intros. apply cut_flip. }
  assert (E2 : map (fun p : xpt => (vc_r (N := XN) p, snd p)) (map lift3 (map flip_y L)) = map (fun p : xpt => (vc_r (N := XN) p, snd p)) (map lift3 L)).
  { rewrite !map_map. apply map_ext. intros. apply rz_flip. }
  rewrite E1, E2. rewrite !gather_map, polar_flip, <- !gather_map. rewrite !map_map.
  match goal with |- context [doublet_line_polar_u ?a ?b ?c] => destruct (doublet_line_polar_u a b c) end; cbn [bind]; auto.
  rewrite <- !(map_map flip_y lift3). rewrite cart2_flip. reflexivity.
Qed.
Lemma dl_flip d (q : R3) : doublet_line_u (N := XN) d (Fin 0) PInf (lift3 (flip_y q)) = negy (doublet_line_u (N := XN) d (Fin 0) PInf (lift3 q)).
Proof.
  destruct q as [[x y] z]. unfold lift3, flip_y, px, py, pz. cbn [fst snd]. unfold doublet_line_u.
  assert (Ea : nsqrt XN (nadd XN (nadd XN (sq (N := XN) (Fin x)) (sq (N := XN) (Fin (- y)))) (sq (N := XN) (Fin z))) = nsqrt XN (nadd XN (nadd XN (sq (N := XN) (Fin x)) (sq (N := XN) (Fin y))) (sq (N := XN) (Fin z)))).
  { cbn. replace (- y * - y) with (y * y) by ring. reflexivity. }
  assert (Eb : nabs XN (Fin (- y)) = nabs XN (Fin y)). { cbn. rewrite Rabs_Ropp. reflexivity. }
  rewrite Ea, Eb. destruct (_ && _ && _ && _).
  - unfold negy. cbn. rewrite Ropp_0. reflexivity.
  - replace (neqb XN PInf (ninf XN)) with true by reflexivity. unfold negy. f_equal. f_equal.
    change (nmul XN) with xmul. change (nsub XN) with xsub. change (Fin (- y)) with (xopp (Fin y)).
    rewrite !xmul_opp_l, xsub_opp, xmul_opp_r. reflexivity.
Qed.
Lemma ss_flip g R l e (q : R3) : ss_u (N := XN) g R l e (lift3 (flip_y q)) = ss_u (N := XN) g R l e (lift3 q).
Proof. destruct q as [[x y] z]. unfold ss_u, lift3, flip_y, px, py, pz. cbn [fst snd]. unfold sq.
  replace (nmul XN (Fin (- y)) (Fin (- y))) with (nmul XN (Fin y) (Fin y)) by (cbn; f_equal; ring). reflexivity. Qed.
Lemma xmul0_opp a : xopp (xmul a (Fin 0)) = xmul a (Fin 0).
Proof. rewrite <- xmul_opp_r. cbn [xopp]. rewrite Ropp_0. reflexivity. Qed.
Lemma tang1_flip t o Mo chi g L : skewed chi = false ->
  cu_tang1 (N := XN) t o Mo chi g (map lift3 (map flip_y L)) = (let* v := cu_tang1 (N := XN) t o Mo chi g (map lift3 L) in Ok (map negy v)).
Proof.
  intros Hs. unfold cu_tang1. rewrite Hs. destruct (String.eqb Mo "VC"); [cbn [bind]; f_equal; apply tang_flip|].
  destruct (String.eqb Mo "VCFF"); [apply ff_flip|].
  destruct (String.eqb Mo "VD"). { cbn [bind]. f_equal. rewrite !map_map. apply map_ext. intros. apply dl_flip. }
  destruct (String.eqb Mo "SS"); [|reflexivity]. cbn [bind]. f_equal. rewrite !map_map. apply map_ext. intros q. rewrite ss_flip. unfold negy.
  change (nmul XN) with xmul. change (nZ XN 0) with (Fin 0). rewrite xmul0_opp. reflexivity.
Qed.
(** swirl kernels: the x component changes sign, the vertical one does not *)
Lemma root_flip G L : vc_root_u (N := XN) G false (map lift3 (map flip_y L)) = map negx (vc_root_u (N := XN) G false (map lift3 L)).
Proof.
  unfold vc_root_u. rewrite !map_map. apply map_ext. intros [[x y] z]. unfold lift3, flip_y, px, py, pz. cbn [fst snd].
  unfold vl_semiinf_straight_u, vl_semiinf_straight_u_polar, vl_straight_cart_of_polar.
  assert (Er : nsqrt XN (nadd XN (sq (N := XN) (Fin x)) (sq (N := XN) (Fin (- y)))) = nsqrt XN (nadd XN (sq (N := XN) (Fin x)) (sq (N := XN) (Fin y)))).
  { cbn. replace (- y * - y) with (y * y) by ring. reflexivity. }
  rewrite Er. destruct (atan2_flip y x) as [C S].
  change (natan2 XN (Fin (- y)) (Fin x)) with (Fin (Ratan2 (- y) x)). change (natan2 XN (Fin y) (Fin x)) with (Fin (Ratan2 y x)).
  change (nsin XN (Fin (Ratan2 (- y) x))) with (Fin (sin (Ratan2 (- y) x))). change (ncos XN (Fin (Ratan2 (- y) x))) with (Fin (cos (Ratan2 (- y) x))).
  rewrite C, S. change (nsin XN (Fin (Ratan2 y x))) with (Fin (sin (Ratan2 y x))). change (ncos XN (Fin (Ratan2 y x))) with (Fin (cos (Ratan2 y x))).
  destruct (neqb XN G (nZ XN 0)); unfold negx; change (nmul XN) with xmul; change (nZ XN 0) with (Fin 0).
  - rewrite xmul0_opp. reflexivity.
  - f_equal. f_equal. change (nopp XN) with xopp. change (Fin (- sin (Ratan2 y x))) with (xopp (Fin (sin (Ratan2 y x)))). rewrite xmul_opp_l. reflexivity.
Qed.
Lemma longi_flip g R L : vc_longi_u (N := XN) g R false (map lift3 (map flip_y L)) = map negx (vc_longi_u (N := XN) g R false (map lift3 L)).
Proof.
  unfold vc_longi_u, vc_longi_u_gen, vc_longi_u_polar_gen.
  set (rzf := fun p : xpt => (fst (fst p), snd p)).
  assert (E : map rzf (map (to_polar (N := XN)) (map lift3 (map flip_y L))) = map rzf (map (to_polar (N := XN)) (map lift3 L))).
  { rewrite !map_map. apply map_ext. intros [[x y] z]. unfold rzf, lift3, flip_y, px, py, pz. cbn. replace (- y * - y) with (y * y) by ring. reflexivity. }
  rewrite E. generalize (map2 (vc_longi_upsi (N := XN) g R) (map rzf (map (to_polar (N := XN)) (map lift3 L)))
     (ellipticPiCarlson (N := XN) (map (vc_longi_nm (N := XN) R) (map rzf (map (to_polar (N := XN)) (map lift3 L)))))). intros us.
  rewrite !map_map, map_map2, !map2_map_l. apply map2_ext. intros [[x y] z] u. unfold lift3, flip_y, px, py, pz. cbn [fst snd to_polar].
  destruct (atan2_flip y x) as [C S].
  change (natan2 XN (Fin (- y)) (Fin x)) with (Fin (Ratan2 (- y) x)). change (natan2 XN (Fin y) (Fin x)) with (Fin (Ratan2 y x)).
  change (nsin XN (Fin (Ratan2 (- y) x))) with (Fin (sin (Ratan2 (- y) x))). change (ncos XN (Fin (Ratan2 (- y) x))) with (Fin (cos (Ratan2 (- y) x))).
  rewrite C, S. change (nsin XN (Fin (Ratan2 y x))) with (Fin (sin (Ratan2 y x))). change (ncos XN (Fin (Ratan2 y x))) with (Fin (cos (Ratan2 y x))).
  unfold negx. f_equal. f_equal. change (nmul XN) with xmul. change (Fin (- sin (Ratan2 y x))) with (xopp (Fin (sin (Ratan2 y x)))). rewrite xmul_opp_r. reflexivity.
Qed.

Lemma inner_mirror (p h v : R3) : inner p v = 0 -> inner (sub3 p h) v + 2 * inner h v = - inner (sub3 p h) v.
Proof. destruct p as [[? ?] ?], h as [[? ?] ?], v as [[? ?] ?]. unfold inner, sub3, px, py, pz. cbn. lra. Qed.

(** ** the mirrored control points of a point of the ground plane *)
Section Ground.
  Variables (t : turbine XN) (sh v hub U : R3) (Rt yaw : R) (o : opts XN) (ps : list R3).
  Hypothesis HW : WF t sh v hub U Rt yaw.
  Hypothesis Hpl : Forall (fun p => inner p v = 0) ps.
  Let M := T_c2g t.
  Let ptc := map (transform_T (N := XN) M) (map lift3 ps).
  Let cyl := transform_T (N := XN) M (t_rhub t).
  Let L := map (fun p => mv (mtr (N := RN) (c2g sh v yaw)) (sub3 p hub)) ps.
  Lemma local_pts : map (shift (N := XN) cyl) ptc = map lift3 L.
  Proof.
    unfold ptc, L. rewrite !map_map. apply map_ext. intros p. apply (local_lift _ _ _ _ _ _ _ p HW).
  Qed.
  Lemma ylist_ground : ylist (N := XN) true cyl ptc = [map lift3 L; map lift3 (map flip_y L)].
  Proof.
    unfold ylist. rewrite local_pts. f_equal. f_equal. unfold L. rewrite !map_map. apply map_ext_in. intros p Hp.
    rewrite Forall_forall in Hpl. specialize (Hpl p Hp).
    assert (HF := wf_frame _ _ _ _ _ _ _ HW).
    destruct (local_comp sh v yaw (sub3 p hub) HF) as (_ & E & _). destruct (local_comp sh v yaw hub HF) as (_ & E' & _). cbv zeta in E, E'.
    assert (C : cyl = lift3 (mv (mtr (N := RN) (c2g sh v yaw)) hub)).
    { unfold cyl, M. rewrite (WF_c2g _ _ _ _ _ _ _ HW), (wf_hub _ _ _ _ _ _ _ HW). apply transform_T_lift. }
    rewrite C. set (q := mv _ (sub3 p hub)) in *. set (h := mv _ hub) in *.
    assert (EE : py q + 2 * py h = - py q).
    { rewrite E, E'. apply inner_mirror. exact Hpl. }
    destruct q as [[q1 q2] q3], h as [[h1 h2] h3]. unfold lift3, flip_y, px, py, pz in *. cbn in *. rewrite EE. reflexivity.
  Qed.
  Lemma ylist_noground : ylist (N := XN) false cyl ptc = [map lift3 L].
  Proof. unfold ylist. rewrite local_pts. reflexivity. Qed.
  (** vertical component of a transformed vector *)
  Lemma vertical_of (w : R3) : inner (mv (c2g sh v yaw) w) v = py w.
  Proof.
    assert (HF := wf_frame _ _ _ _ _ _ _ HW).
    destruct (local_comp sh v yaw (mv (c2g sh v yaw) w) HF) as (_ & E & _). cbv zeta in E. rewrite <- E. rewrite c2g_tr_l; auto.
  Qed.
  Lemma finish_vertical u k q : o_only_ind o = true -> nth_error (finish (N := XN) t o (map lift3 ps) u) k = Some (lift3 q) ->
    inner q v = 0 \/ exists w, nth_error u k = Some (lift3 w) /\ inner q v = py w.
  Proof.
    intros Hi. unfold finish. rewrite Hi. fold M. fold ptc. fold cyl. rewrite nth_error_map.
    destruct (nth_error (if o_no_wake o then _ else u) k) as [w|] eqn:E; [|discriminate]. cbn [option_map]. intros H.
    assert (H' : transform (N := XN) M w = lift3 q) by congruence. unfold M in H'. rewrite (WF_c2g _ _ _ _ _ _ _ HW) in H'.
    destruct (transform_fin_inv _ _ _ H') as (w0 & ->). rewrite transform_lift in H'. apply lift3_inj in H'. subst q. rewrite vertical_of.
    destruct (o_no_wake o).
    - rewrite map2_nth_error in E. destruct (nth_error (map (shift cyl) ptc) k) as [p|]; [|discriminate]. destruct (nth_error u k) as [w|]; [|discriminate].
      destruct (in_wake_tube (t_R t) p).
      + left. assert (K : lift3 w0 = (Fin 0, Fin 0, Fin 0)) by (cbn in E; congruence). unfold lift3 in K. congruence.
      + right. exists w0. split; [congruence|reflexivity].
    - right. exists w0. auto.
  Qed.
End Ground.

Definition ycancel (pts u : list xpt) : Prop := exists S, len S = len pts /\ u = fadd (N := XN) S (map negy S).
Lemma ycancel_0 pts u k w : ycancel pts u -> nth_error u k = Some (lift3 w) -> py w = 0.
Proof.
  intros (S & _ & ->). unfold fadd. rewrite map2_nth_error, nth_error_map. destruct (nth_error S k) as [[[x y] z]|]; [|discriminate]. cbn [option_map negy vadd].
  intros H. assert (K : xadd y (xopp y) = Fin (py w)) by (unfold lift3 in H; change (nadd XN) with xadd in H; congruence).
  destruct y as [y| | |]; cbn in K; try discriminate. injection K as K. lra.
Qed.
Lemma fzero_cancel (pts : list xpt) : ycancel pts (fzero (N := XN) pts).
Proof.
  exists (fzero (N := XN) pts). split; [apply fzero_length|]. rewrite fzero_negy. symmetry. apply faddX_0_l. apply fzero_length.
Qed.
Lemma vcs_cancel cyl grs L (ptc : list xpt) : ylist (N := XN) true cyl ptc = [map lift3 L; map lift3 (map flip_y L)] -> len L = len ptc ->
  ycancel ptc (vcs_tang_u (N := XN) (nZ XN 0) true [(cyl, grs)] ptc).
Proof.
  intros HY HL. unfold vcs_tang_u, vcs_tang_u_gen. cbn [fold_left fst snd]. rewrite HY. cbn [fold_left].
  rewrite !(fold_cond_fsum (N := XN)).
  set (T := fun Y => flat_map (fun gr : XN * XN => if nlt XN (nZ XN 0) (nabs XN (fst gr)) then [vc_tang_u_gen (N := XN) ellipticPiCarlson (fst gr) (snd gr) (nZ XN 0) Y] else []) grs).
  fold (T (map lift3 L)). fold (T (map lift3 (map flip_y L))).
  assert (E : T (map lift3 (map flip_y L)) = map (map negy) (T (map lift3 L))).
  { unfold T. induction grs as [|gr grs IH]; auto. cbn [flat_map]. rewrite map_app, <- IH. f_equal.
    destruct (nlt XN (nZ XN 0) (nabs XN (fst gr))); auto. cbn [map]. f_equal. apply (tang_flip (fst gr) (snd gr) L). }
  rewrite E. destruct (fsum_both ptc (T (map lift3 L))) as [A B].
  { unfold T. apply Forall_forall. intros x Hx. apply in_flat_map in Hx. destruct Hx as (gr & _ & Hx). destruct (nlt XN (nZ XN 0) (nabs XN (fst gr))); [|destruct Hx].
    destruct Hx as [<-|[]]. etransitivity; [apply (vc_tang_u_length (N := XN))|]. rewrite map_length. auto. }
  rewrite A. exists (fsum (fzero (N := XN) ptc) (T (map lift3 L))). split; auto.
Qed.

Theorem C26_tangential : forall minim (t : turbine XN) sh v hub U Rt yaw o (ps : list R3) u,
  built minim t sh v hub U Rt yaw -> ground_on t o = true -> skewed (chi_now t) = false ->
  o_root o = false -> o_longi o = false -> o_only_ind o = true ->
  Forall (fun p => inner p v = 0) ps ->
  snd (compute_u t o (map lift3 ps)) = Ok u ->
  forall k q, nth_error u k = Some (lift3 q) -> inner q v = 0.
Proof.
  intros minim t sh v hub U Rt yaw o ps u HB Hg Hs Hr Hl Hi Hp. pose proof (built_WF _ _ _ _ _ _ _ _ HB) as HW.
  rewrite compute_u_terms. destruct (t_gt t) as [gs|]; [|discriminate]. unfold terms. unfold ground_on in Hg. rewrite Hg.
  pose proof (ylist_ground t sh v hub U Rt yaw ps HW Hp) as HY. cbv zeta in HY.
  set (L := map (fun p => mv (mtr (N := RN) (c2g sh v yaw)) (sub3 p hub)) ps) in *.
  set (ptc := map (transform_T (N := XN) (T_c2g t)) (map lift3 ps)) in *. set (cyl := transform_T (N := XN) (T_c2g t) (t_rhub t)) in *.
  assert (LL : len L = len ptc) by (unfold L, ptc; rewrite !map_length; reflexivity).
  assert (LP : len ptc = len (map lift3 ps)) by (unfold ptc; apply map_length).
  unfold root_terms. rewrite Hr. cbn [bind app]. cbv zeta.
  set (Mo := match o_Model o with Some m => m | None => t_model t end).
  assert (K : forall vs, (match gs with [g] => single_terms (N := XN) t o Mo (chi_now t) g (ylist true cyl ptc) | _ => multi_terms (N := XN) t o Mo (chi_now t) gs true cyl ptc end) = Ok vs ->
     ycancel (map lift3 ps) (fsum (N := XN) (fzero (N := XN) (map lift3 ps)) vs)).
  { intros vs. rewrite HY.
    assert (MU : multi_terms (N := XN) t o Mo (chi_now t) gs true cyl ptc = Ok vs -> ycancel (map lift3 ps) (fsum (N := XN) (fzero (N := XN) (map lift3 ps)) vs)).
    { unfold multi_terms. rewrite Hs, Hl. destruct (String.eqb Mo "VC"); [|discriminate]. destruct (t_r t) as [r|]; [|discriminate]. destruct (t_gl t) as [gl|]; [|discriminate].
      destruct (negb _); [discriminate|]. destruct (match gl with Some gl => _ | None => _ end); [discriminate|]. intros H.
      assert (H' : vs = (if o_tang o then [vcs_tang_u (N := XN) (nZ XN 0) true [(cyl, map2 pair gs r)] ptc] else []) ++ []) by congruence. rewrite app_nil_r in H'. subst vs.
      destruct (o_tang o); [|apply fzero_cancel]. cbn [fsum fold_left].
      destruct (vcs_cancel cyl (map2 pair gs r) L ptc HY LL) as (S & LS & ->). exists S. split; [congruence|].
      apply faddX_0_l. unfold fadd. rewrite map2_length, map_length. lia. }
    destruct gs as [|g [|g' gs]]; auto. clear MU. unfold single_terms. cbn [mapM]. unfold single1_terms, gl_active1. rewrite Hl. cbn [negb bind].
    destruct (o_tang o && negb (neqb XN g (nZ XN 0))); cbn [bind].
    2:{ intros H. assert (E : Ok (@nil (list xpt)) = Ok vs) by exact H. assert (E' : vs = []) by congruence. rewrite E'. apply fzero_cancel. }
    rewrite (tang1_flip t o Mo (chi_now t) g L Hs). destruct (cu_tang1 (N := XN) t o Mo (chi_now t) g (map lift3 L)) as [a|e] eqn:EA; [|discriminate]. cbn [bind app List.concat].
    intros H. assert (E : vs = [a; map negy a]) by congruence. subst vs.
    assert (La : len a = len (map lift3 ps)). { apply cu_tang1_length in EA. rewrite EA, map_length. congruence. }
    destruct (fsum_both (map lift3 ps) [a]) as [A B]; [repeat constructor; auto|]. exists (fsum (N := XN) (fzero (N := XN) (map lift3 ps)) [a]). split; auto. }
  match goal with |- bind ?x _ = _ -> _ => destruct x as [vs|e] eqn:E end; [|discriminate]. cbn [bind]. intros H k q Hq.
  assert (Hu : u = finish t o (map lift3 ps) (fsum (fzero (map lift3 ps)) vs)) by congruence. subst u.
  destruct (finish_vertical t sh v hub U Rt yaw o ps HW _ k q Hi Hq) as [|(w & Hw & ->)]; auto.
  eapply ycancel_0; [|exact Hw]. apply K.
  match goal with |- ?m = _ => destruct m; cbn [bind] in E; congruence end.
Qed.

(** For the kernel 'VC' with one cylinder the field exists and is finite everywhere, so the statement above is about every point. *)
Lemma lift_fadd (a b : list R3) : fadd (N := XN) (map lift3 a) (map lift3 b) = map lift3 (map2 add3 a b).
Proof. unfold fadd. rewrite map2_map_l, map2_map_r, map_map2. apply map2_ext. intros [[? ?] ?] [[? ?] ?]. reflexivity. Qed.
Lemma lift_negy (a : list R3) : map negy (map lift3 a) = map lift3 (map flip_y a).
Proof. rewrite !map_map. apply map_ext. intros [[? ?] ?]. reflexivity. Qed.
Theorem C26_single_cylinder_finite : forall minim (t : turbine XN) sh v hub U Rt yaw o (ps : list R3) g,
  built minim t sh v hub U Rt yaw -> 0 < Rt -> ground_on t o = true -> skewed (chi_now t) = false ->
  o_root o = false -> o_longi o = false -> o_only_ind o = true -> model_of t o = "VC"%string -> t_gt t = Some [Fin g : XN] ->
  Forall (fun p => inner p v = 0) ps ->
  exists us : list R3, snd (compute_u t o (map lift3 ps)) = Ok (map lift3 us) /\ len us = len ps /\ Forall (fun q => inner q v = 0) us.
Proof.
  intros minim t sh v hub U Rt yaw o ps g HB hR Hg Hs Hr Hl Hi HM Hgt Hp. pose proof (built_WF _ _ _ _ _ _ _ _ HB) as HW.
  enough (E : exists us : list R3, snd (compute_u t o (map lift3 ps)) = Ok (map lift3 us)).
  { destruct E as (us & E). exists us. split; auto. split.
    - apply compute_u_length in E. rewrite !map_length in E. auto.
    - apply Forall_forall. intros q Hq. apply In_nth_error in Hq. destruct Hq as (k & Hk).
      eapply (C26_tangential minim t sh v hub U Rt yaw o ps (map lift3 us)); eauto. rewrite nth_error_map, Hk. reflexivity. }
  rewrite compute_u_terms, Hgt. unfold terms. unfold ground_on in Hg. unfold model_of in HM. rewrite Hg, HM.
  pose proof (ylist_ground t sh v hub U Rt yaw ps HW Hp) as HY. cbv zeta in HY.
  set (L := map (fun p => mv (mtr (N := RN) (c2g sh v yaw)) (sub3 p hub)) ps) in *.
  rewrite HY. unfold root_terms. rewrite Hr. cbn [bind app]. unfold single_terms. cbn [mapM]. unfold single1_terms, gl_active1. rewrite Hl. cbn [negb bind].
  assert (F : forall u : list R3, len u = len ps -> exists us : list R3, finish (N := XN) t o (map lift3 ps) (map lift3 u) = map lift3 us).
  { intros u Lu. unfold finish. rewrite Hi, (WF_c2g _ _ _ _ _ _ _ HW).
    assert (G : exists u', (if o_no_wake o then map2 (fun (p0 : xpt) v0 => if in_wake_tube (N := XN) (t_R t) p0 then (nZ XN 0, nZ XN 0, nZ XN 0) else v0)
       (map (shift (transform_T (liftM (c2g sh v yaw)) (t_rhub t))) (map (transform_T (liftM (c2g sh v yaw))) (map lift3 ps))) (map lift3 u) else map lift3 u) = map lift3 u').
    { destruct (o_no_wake o); [|eexists; reflexivity].
      generalize (map (shift (N := XN) (transform_T (liftM (c2g sh v yaw)) (t_rhub t))) (map (transform_T (liftM (c2g sh v yaw))) (map lift3 ps))). clear.
      induction u as [|a u IH]; intros [|p l]; try (exists []; reflexivity). destruct (IH l) as (u' & E). cbn [map map2].
      exists ((if in_wake_tube (N := XN) (t_R t) p then zero else a) :: u'). cbn [map]. rewrite <- E. f_equal. destruct (in_wake_tube (t_R t) p); reflexivity. }
    destruct G as (u' & ->). exists (map (mv (c2g sh v yaw)) u'). rewrite !map_map. apply map_ext. intros. apply transform_lift. }
  destruct (o_tang o && negb (neqb XN (Fin g) (nZ XN 0))); cbn [bind].
  2:{ destruct (F (map (fun _ => zero) ps)) as (us & E); [apply map_length|]. exists us. rewrite <- E. f_equal. f_equal. cbn. unfold fzero. rewrite !map_map. reflexivity. }
  rewrite (tang1_flip t o _ (chi_now t) (Fin g) L Hs).
  unfold cu_tang1. rewrite Hs, (wf_R _ _ _ _ _ _ _ HW). cbn [String.eqb Ascii.eqb Bool.eqb bind app List.concat].
  destruct (P_Cylinder2.C52_finite_everywhere g Rt L hR) as [_ (a & La & Ea)].
  change (map P_Line.xv L) with (map lift3 L) in Ea. change (map P_Line.xv a) with (map lift3 a) in Ea. change (nZ XN 0) with (Fin 0). rewrite Ea. rewrite lift_negy.
  assert (LL : len a = len ps) by (rewrite La; apply map_length).
  destruct (F (map2 add3 (map2 add3 (map (fun _ => zero) ps) a) (map flip_y a))) as (us & E).
  { rewrite !map2_length, !map_length. lia. }
  exists us. rewrite <- E. f_equal. f_equal. rewrite <- !lift_fadd. cbn [fsum fold_left]. f_equal. f_equal. unfold fzero. rewrite !map_map. reflexivity.
Qed.

(** The swirl components (root vortex; longitudinal vorticity of a single cylinder) are mirrored with the same sign: the ground effect
    doubles the vertical velocity on the ground plane instead of cancelling it. *)
Definition with_ground (b : bool) (o : opts XN) : opts XN :=
  {| o_only_ind := o_only_ind o; o_longi := o_longi o; o_tang := o_tang o; o_root := o_root o; o_no_wake := o_no_wake o; o_ground := Some b; o_Model := o_Model o; o_far := o_far o |}.
Lemma swirl_double (ps : list R3) a k w w0 : len a = len ps ->
  nth_error (fsum (N := XN) (fzero (N := XN) (map lift3 ps)) [a; map negx a]) k = Some (lift3 w) ->
  nth_error (fsum (N := XN) (fzero (N := XN) (map lift3 ps)) [a]) k = Some (lift3 w0) -> py w = 2 * py w0.
Proof.
  intros La. cbn [fsum fold_left]. rewrite (faddX_0_l a) by (rewrite map_length; auto). unfold fadd. rewrite map2_nth_error, nth_error_map.
  destruct (nth_error a k) as [[[x y] z]|]; [|discriminate]. cbn [option_map negx vadd]. intros H1 H2.
  assert (Y : y = Fin (py w0)) by (unfold lift3 in H2; congruence). assert (Y2 : xadd y y = Fin (py w)) by (unfold lift3 in H1; change (nadd XN) with xadd in H1; congruence).
  subst y. cbn in Y2. injection Y2 as Y2. lra.
Qed.
Theorem C85_swirl_doubles : forall minim (t : turbine XN) sh v hub U Rt yaw o (ps : list R3) g u u0,
  built minim t sh v hub U Rt yaw -> skewed (chi_now t) = false -> t_gt t = Some [g] ->
  o_tang o = false -> (o_root o = false \/ o_longi o = false) -> o_only_ind o = true -> o_no_wake o = false ->
  Forall (fun p => inner p v = 0) ps ->
  snd (compute_u t (with_ground true o) (map lift3 ps)) = Ok u -> snd (compute_u t (with_ground false o) (map lift3 ps)) = Ok u0 ->
  forall k q q0, nth_error u k = Some (lift3 q) -> nth_error u0 k = Some (lift3 q0) -> inner q v = 2 * inner q0 v.
Proof.
  intros minim t sh v hub U Rt yaw o ps g u u0 HB Hs Hgt Ht Hor Hi Hnw Hp. pose proof (built_WF _ _ _ _ _ _ _ _ HB) as HW.
  assert (FV : forall b vs k q, nth_error (finish (N := XN) t (with_ground b o) (map lift3 ps) (fsum (fzero (map lift3 ps)) vs)) k = Some (lift3 q) ->
     exists w, nth_error (fsum (N := XN) (fzero (N := XN) (map lift3 ps)) vs) k = Some (lift3 w) /\ inner q v = py w).
  { intros b vs k q Hq. unfold finish in Hq. cbn [with_ground o_no_wake o_only_ind] in Hq. rewrite Hi, Hnw in Hq. rewrite nth_error_map in Hq.
    destruct (nth_error (fsum (N := XN) (fzero (N := XN) (map lift3 ps)) vs) k) as [w|]; [|discriminate]. cbn [option_map] in Hq.
    assert (H' : transform (N := XN) (T_c2g t) w = lift3 q) by congruence. rewrite (WF_c2g _ _ _ _ _ _ _ HW) in H'.
    destruct (transform_fin_inv _ _ _ H') as (w0 & ->). rewrite transform_lift in H'. apply lift3_inj in H'. subst q. exists w0. split; auto. apply (vertical_of t sh v hub U Rt yaw HW). }
  rewrite !compute_u_terms, Hgt. unfold terms. cbn [with_ground o_ground o_Model].
  pose proof (ylist_ground t sh v hub U Rt yaw ps HW Hp) as HY. pose proof (ylist_noground t sh v hub U Rt yaw ps HW) as HY0. cbv zeta in HY, HY0.
  set (L := map (fun p => mv (mtr (N := RN) (c2g sh v yaw)) (sub3 p hub)) ps) in *. rewrite HY, HY0.
  assert (LL : len (map lift3 L) = len ps) by (unfold L; rewrite !map_length; reflexivity).
  set (Mo := match o_Model o with Some m => m | None => t_model t end).
  (* the two lists of contributions *)
  assert (K : forall vs vs0,
     (let* a := root_terms (N := XN) t (with_ground true o) (chi_now t) [map lift3 L; map lift3 (map flip_y L)] in
      let* b := single_terms (N := XN) t (with_ground true o) Mo (chi_now t) g [map lift3 L; map lift3 (map flip_y L)] in Ok (a ++ b)) = Ok vs ->
     (let* a := root_terms (N := XN) t (with_ground false o) (chi_now t) [map lift3 L] in
      let* b := single_terms (N := XN) t (with_ground false o) Mo (chi_now t) g [map lift3 L] in Ok (a ++ b)) = Ok vs0 ->
     (vs = [] /\ vs0 = []) \/ exists a, len a = len ps /\ vs = [a; map negx a] /\ vs0 = [a]).
  { intros vs vs0. unfold root_terms, single_terms. cbn [mapM]. unfold single1_terms, gl_active1. cbn [with_ground o_root o_longi o_tang]. rewrite Ht, Hs. cbn [andb bind].
    destruct (o_longi o) eqn:Hl.
    - destruct Hor as [Hr|Hr]; [|discriminate]. rewrite Hr. cbn [bind negb].
      destruct (t_gl t) as [[[|gl [|gl' gls]]|]|]; cbn [bind]; try discriminate.
      + destruct (neqb XN gl (nZ XN 0)); cbn [bind].
        * intros A B. left. split; [assert (E : Ok (@nil (list xpt)) = Ok vs) by exact A|assert (E : Ok (@nil (list xpt)) = Ok vs0) by exact B]; congruence.
        * unfold cu_longi1. rewrite Hs. destruct (String.eqb Mo "VC"); [|discriminate]. cbn [bind app List.concat]. rewrite longi_flip. intros A B. right.
          exists (vc_longi_u (N := XN) gl (t_R t) false (map lift3 L)). split; [rewrite vc_longi_u_length; auto|]. split; congruence.
      + intros A B. left. split; [assert (E : Ok (@nil (list xpt)) = Ok vs) by exact A|assert (E : Ok (@nil (list xpt)) = Ok vs0) by exact B]; congruence.
    - cbn [negb bind List.concat]. destruct (o_root o); [destruct (t_Gr t) as [G|]; [destruct (neqb XN G (nZ XN 0))|]|];
        try (intros A B; left; split; [assert (E : Ok (@nil (list xpt)) = Ok vs) by exact A|assert (E : Ok (@nil (list xpt)) = Ok vs0) by exact B]; congruence).
      cbn [bind app]. rewrite root_flip. intros A B. right. exists (vc_root_u (N := XN) G false (map lift3 L)). split; [rewrite vc_root_u_length; auto|].
      split; [assert (E : Ok [vc_root_u (N := XN) G false (map lift3 L); map negx (vc_root_u (N := XN) G false (map lift3 L))] = Ok vs) by exact A
             |assert (E : Ok [vc_root_u (N := XN) G false (map lift3 L)] = Ok vs0) by exact B]; congruence. }
  match goal with |- bind ?x _ = _ -> bind ?y _ = _ -> _ => destruct x as [vs|e] eqn:E; [|discriminate]; destruct y as [vs0|e] eqn:E0; [|discriminate] end.
  cbn [bind]. intros H H0 k q q0 Hq Hq0.
  assert (Hu : u = finish t (with_ground true o) (map lift3 ps) (fsum (fzero (map lift3 ps)) vs)) by congruence.
  assert (Hu0 : u0 = finish t (with_ground false o) (map lift3 ps) (fsum (fzero (map lift3 ps)) vs0)) by congruence. subst u u0.
  destruct (FV _ _ _ _ Hq) as (w & Hw & ->). destruct (FV _ _ _ _ Hq0) as (w0 & Hw0 & ->).
  destruct (K vs vs0 eq_refl eq_refl) as [[-> ->]|(a & La & -> & ->)].
  - assert (Z : forall w, nth_error (fsum (N := XN) (fzero (N := XN) (map lift3 ps)) []) k = Some (lift3 w) -> py w = 0).
    { intros w1 Hw1. eapply ycancel_0; [apply (fzero_cancel (map lift3 ps))|exact Hw1]. }
    rewrite (Z _ Hw), (Z _ Hw0). ring.
  - eapply swirl_double; eauto.
Qed.
(** with several cylinders the longitudinal component ignores the ground altogether *)
Theorem C85_multi_longi_ignores_ground : forall (t : turbine XN) o pts gs, t_gt t = Some gs -> len gs <> 1%nat -> skewed (chi_now t) = false ->
  o_tang o = false -> o_root o = false ->
  snd (compute_u t (with_ground true o) pts) = snd (compute_u t (with_ground false o) pts).
Proof.
  intros t o pts gs Hgt Hn Hs Ht Hr. rewrite !compute_u_terms, Hgt. unfold terms, root_terms. cbn [with_ground o_root o_ground o_Model]. rewrite Hr. cbn [bind].
  destruct gs as [|g [|g' gs]]; [|exfalso; auto|]; unfold multi_terms; cbn [with_ground o_tang o_longi]; rewrite Ht, Hs; reflexivity.
Qed.

(** *** Full statement and refutation *)
Definition C85_full : Prop := forall minim (t : turbine XN) sh v hub U Rt yaw o (ps : list R3) u,
  built minim t sh v hub U Rt yaw -> ground_on t o = true -> skewed (chi_now t) = false -> o_only_ind o = true ->
  Forall (fun p => inner p v = 0) ps ->
  snd (compute_u t o (map lift3 ps)) = Ok u ->
  forall k q, nth_error u k = Some (lift3 q) -> inner q v = 0.
(** a turbine at hub height 100 over the ground, with a root vortex *)
Definition gr_new : turbine XN :=
  new_turbine (N := XN) (Fin 50) (lift3 (0,0,100)) (lift3 xR) (lift3 zR) (lift3 (wind xR zR 10 0 0)) None None "" true "VC".
Definition gr_t minim : turbine XN :=
  fst (update_loading (N := XN) minim (Some [Fin 50 : XN]) None (Some [Fin 100 : XN]) (Some (Fin 7 : XN)) None None gr_new).
Lemma gr_built minim : built minim (gr_t minim) xR zR (0,0,100) (wind xR zR 10 0 0) 50 0.
Proof. apply b_load. apply b_new. apply ex_frame. Qed.
Lemma gr_norm : norm (N := XN) (t_U0 gr_new) = Fin 10.
Proof.
  change (t_U0 gr_new) with (lift3 (wind xR zR 10 0 0)). rewrite <- ex_wind, norm_lift. f_equal. unfold length3, inner, px, py, pz. cbn [fst snd].
  replace (10 * 10 + 0 * 0 + 0 * 0) with (10 * 10) by ring. apply sqrt_square. lra.
Qed.
Lemma gr_facts minim : exists g, t_gt (gr_t minim) = Some [g] /\ t_Gr (gr_t minim) = Some (Fin (- 100)) /\ t_ground (gr_t minim) = true /\ t_model (gr_t minim) = "VC"%string /\ t_chi (gr_t minim) = None.
Proof.
  unfold gr_t, update_loading, mbind, mlift, massign, mret. rewrite gr_norm. cbn [load_interp need bind]. change (t_R gr_new) with (Fin 50).
  unfold WakeVorticityFromGamma, WakeVorticityFromCirculation_Discr, default_r_cyl.
  replace (omega_fix (N := XN) (ndiv XN (nmul XN (Fin 7) (Fin 10)) (Fin 50))) with (Fin (7 * 10 / 50)).
  2:{ unfold omega_fix. change (ndiv XN) with xdiv. change (nmul XN) with xmul. cbn [xmul]. rewrite xdiv_fin by lra. reflexivity. }
  replace (nlt XN (amax [Fin 50 : XN]) (amax [Fin 50 : XN])) with false by (symmetry; cbn; apply Rltb_false; lra).
  replace (neqb XN (Fin 50) (nZ XN 0)) with false by (symmetry; cbn; apply Reqb_false; lra).
  replace (nlt XN (ndiv XN (nmul XN (Fin (7 * 10 / 50)) (Fin 50)) (Fin 10)) (nZ XN 20)) with true.
  2:{ symmetry. change (ndiv XN) with xdiv. change (nmul XN) with xmul. cbn [xmul]. rewrite xdiv_fin by lra. cbn. apply Rltb_true. lra. }
  cbn [fst snd set_Ct set_r set_Lambda set_Gr set_gl set_gt w_gt w_Gr w_gl t_gt t_Gr t_ground t_model t_chi].
  eexists. split; [reflexivity|]. split; [cbn; f_equal; f_equal; ring|]. repeat split.
Qed.
Theorem C85_root_refuted : ~ C85_full.
Proof.
  intros H. set (minim := fun (f : XN -> XN) (a b : XN) => a).
  set (o := {| o_only_ind := true; o_longi := false; o_tang := false; o_root := true; o_no_wake := false; o_ground := None; o_Model := None; o_far := (nZ XN 6) |} : opts XN).
  destruct (gr_facts minim) as (g & Hgt & HG & Hgr & HM & Hc). pose proof (gr_built minim) as HB. pose proof (built_WF _ _ _ _ _ _ _ _ HB) as HW.
  assert (Hs : skewed (chi_now (gr_t minim)) = false).
  { unfold chi_now. rewrite Hc. rewrite (chi_fresh_X _ _ _ _ _ _ _ _ _ HW) by (pose proof PI_RGT_0; lra). replace (0 - 0) with 0 by ring. apply small_not_skewed. }
  set (p := (0, 30, 0) : R3). assert (Hp : Forall (fun p => inner p zR = 0) [p]).
  { constructor; [|constructor]. unfold inner, p, zR, px, py, pz. cbn. ring. }
  set (t := gr_t minim) in *.
  set (q := mv (mtr (N := RN) (c2g xR zR 0)) (sub3 p (0,0,100))).
  assert (Q : q = (30, -100, 0)).
  { destruct (local_comp xR zR 0 (sub3 p (0,0,100)) (wf_frame _ _ _ _ _ _ _ HW)) as (E1 & E2 & E3). cbv zeta in *. fold q in E1, E2, E3. rewrite !rotate_0 in *.
    apply eq3; [rewrite E1|rewrite E2|rewrite E3]; unfold inner, sub3, vprod, xR, zR, p, px, py, pz; cbn; lra. }
  set (w := klineR (-100) ez (30, -100, 0)). set (w' := klineR (-100) ez (30, 100, 0)).
  assert (C : snd (compute_u (N := XN) t o (map lift3 [p])) = Ok [lift3 (mv (c2g xR zR 0) (add3 (add3 zero w) w'))]).
  { rewrite compute_u_terms. rewrite Hgt. unfold terms. cbn [o o_ground o_Model]. rewrite Hgr, HM.
    pose proof (ylist_ground t xR zR _ _ _ _ [p] HW Hp) as HY. cbv zeta in HY. rewrite HY. cbn [map]. fold q. rewrite Q.
    unfold root_terms. cbn [o o_root]. rewrite HG.
    replace (neqb XN (Fin (-100)) (nZ XN 0)) with false by (symmetry; cbn; apply Reqb_false; lra). rewrite Hs. cbn [mapM bind].
    unfold single_terms. cbn [mapM]. unfold single1_terms, gl_active1. cbn [o o_tang o_longi negb andb bind app List.concat].
    unfold vc_root_u. cbn [map]. unfold flip_y, lift3, px, py, pz. cbn [fst snd]. replace (- -100) with 100 by ring.
    rewrite !straight_X by lra. fold w. fold w'.
    unfold finish. cbn [o o_no_wake o_only_ind]. rewrite (WF_c2g _ _ _ _ _ _ _ HW). reflexivity. }
  assert (F : inner (mv (c2g xR zR 0) (add3 (add3 zero w) w')) zR = 0).
  { apply (H minim t xR zR (0,0,100) (wind xR zR 10 0 0) 50 0 o [p] _ HB Hgr Hs eq_refl Hp C 0%nat). reflexivity. }
  rewrite (vertical_of t xR zR _ _ _ _ HW) in F. unfold w, w', klineR, scal3, vprod, ez, add3, zero, inner, px, py, pz in F. cbn [fst snd] in F.
  assert (L1 : length3 (30, -100, 0) * length3 (30, -100, 0) = 10900). { unfold length3. rewrite sqrt_sqrt; unfold inner, px, py, pz; cbn; lra. }
  assert (L2 : length3 (30, 100, 0) * length3 (30, 100, 0) = 10900). { unfold length3. rewrite sqrt_sqrt; unfold inner, px, py, pz; cbn; lra. }
  match type of F with context [length3 (30, -100, 0) * ?x] => replace (length3 (30, -100, 0) * x) with 10900 in F by (rewrite <- L1; ring) end.
  match type of F with context [length3 (30, 100, 0) * ?x] => replace (length3 (30, 100, 0) * x) with 10900 in F by (rewrite <- L2; ring) end.
  pose proof PI_RGT_0 as HP. assert (D : -100 / (4 * PI * 10900) < 0).
  { assert (0 < / (4 * PI * 10900)) by (apply Rinv_0_lt_compat; lra). unfold Rdiv. nra. }
  nra.
Qed.
(** the hypotheses of the positive theorem are met by an ordinary turbine over the ground; points on the ground below, beside and behind it *)
Definition gr_c minim : turbine XN :=
  fst (update_loading (N := XN) minim None (Some [Fin (1/2) : XN]) None (Some (Fin 7 : XN)) None (Some (fun _ => Ok [Fin (-3) : XN])) gr_new).
Example C26_nonvacuous : forall minim, exists us,
  snd (compute_u (gr_c minim) (with_only_ind true default_opts) (map lift3 [(0,30,0); (-200,5,0); (400,0,0)])) = Ok (map lift3 us) /\ len us = 3%nat /\
  Forall (fun q => inner q zR = 0) us.
Proof.
  intros minim. assert (HB : built minim (gr_c minim) xR zR (0,0,100) (wind xR zR 10 0 0) 50 0). { apply b_load. apply b_new. apply ex_frame. }
  apply (C26_single_cylinder_finite minim (gr_c minim) xR zR (0,0,100) (wind xR zR 10 0 0) 50 0 (with_only_ind true default_opts) [(0,30,0); (-200,5,0); (400,0,0)] (-3) HB); try reflexivity; try lra.
  - change (chi_now (gr_c minim)) with (chi_fresh (gr_c minim)). rewrite (chi_fresh_X _ _ _ _ _ _ _ _ _ (built_WF _ _ _ _ _ _ _ _ HB)) by (pose proof PI_RGT_0; lra).
    replace (0 - 0) with 0 by ring. apply small_not_skewed.
  - repeat constructor; unfold inner, zR, px, py, pz; cbn; ring.
Qed.
