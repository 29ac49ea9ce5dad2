(** * C57: Cartesian output = polar output in Cartesian components *)
From Coquelicot Require Import Coquelicot.
From Coq Require Import ZArith List Bool Arith Lia String Reals Lra Psatz.
From Verif Require Import Num NumR NumX M_Elliptic M_Line M_Cylinder M_Ring M_Doublet M_Skewed L_List L_X L_Angles L_Built Spec SpecBS L_Calc L_Ell L_Cyl L_Carlson P_Line P_Ring P_Doublet P_Skewed P_Cylinder P_Cylinder2 P_Cylinder3 P_Longi.
Import ListNotations.
Local Open Scope R_scope.

(** specification: Cartesian components of the polar vector (u_r,u_psi,u_z) at azimuth psi *)
Definition cart_of (psi : R) (u : R3) : R3 := (px u * cos psi - py u * sin psi, px u * sin psi + py u * cos psi, pz u).

(** semi-infinite straight line *)
Theorem C57_straight_line : forall G (p : R3), px p * px p + py p * py p <> 0 \/ G = 0 ->
  exists v, vl_semiinf_straight_u (N := XN) (Fin G) true (xv p) = xv v /\ vl_semiinf_straight_u (N := XN) (Fin G) false (xv p) = xv (cart_of (azim p) v).
Proof.
  intros G [[x y] z] H. unfold px, py in H. cbn [fst snd] in H. pose proof PI_RGT_0 as HP. pose proof (Rsq_pos x). pose proof (Rsq_pos y). pose proof (Rsq_pos z).
  unfold vl_semiinf_straight_u, vl_semiinf_straight_u_polar, vl_straight_polar, vl_straight_cart_of_polar, xv, azim, px, py, pz. cbn [fst snd].
  change (natan2 XN (Fin y) (Fin x)) with (Fin (Ratan2 y x)).
  assert (ER : nsqrt XN (nadd XN (sq (Fin x : XN)) (sq (Fin y : XN))) = Fin (sqrt (x * x + y * y))) by (xn; rewrite xsqrt_fin by lra; reflexivity). rewrite ER.
  change (neqb XN (Fin G) (nZ XN 0)) with (Reqb G 0). unfold Reqb. destruct (Req_EM_T G 0) as [E|E].
  - eexists (_ * 0, _ * 0, _ * 0). split; [reflexivity|]. unfold cart_of, px, py, pz. cbn [fst snd]. xn. apply tri; f_equal; ring.
  - destruct H as [H|H]; [|contradiction]. assert (R0 : 0 < sqrt (x * x + y * y)) by (apply sqrt_lt_R0; lra). set (r := sqrt (x * x + y * y)) in *.
    assert (Q : 0 < r * r + z * z) by (pose proof (Rsq_lt r ltac:(lra)); lra). assert (SQ : 0 < sqrt (r * r + z * z)) by (apply sqrt_lt_R0; auto).
    assert (D : 4 * PI * r <> 0) by (apply Rgt_not_eq, Rmult_lt_0_compat; lra).
    eexists (0, G / (4 * PI * r) * (1 + z / sqrt (r * r + z * z)), 0). xn. rewrite xsqrt_fin by lra. rewrite !xdiv_fin by lra. xn. split; [reflexivity|].
    unfold cart_of, px, py, pz. cbn [fst snd]. apply tri; f_equal; ring.
Qed.
(** vortex ring: ring_u returns (u_r, u_z); u_psi is zero *)
Theorem C57_ring : forall G Rr eps (p : R3), 0 < Rr -> 0 <= eps ->
  exists ur uz, ring_u_pol (N := XN) (Fin G) (Fin Rr) (Fin eps) (xv p) = (Fin ur, Fin uz) /\
    ring_u (N := XN) (Fin G) (Fin Rr) (Fin eps) (xv p) = xv (cart_of (azim p) (ur, 0, uz)).
Proof.
  intros G Rr eps [[x y] z] hR he. unfold ring_u. change (xv (x, y, z)) with (Fin x, Fin y, Fin z). rewrite (ring_u_pol_val G Rr eps x y z hR he).
  do 2 eexists. split; [reflexivity|]. unfold cart_of_polar2, cart_of, azim, xv, px, py, pz. cbn [fst snd]. xn. apply tri; f_equal; ring.
Qed.
(** tangential cylinder, whole arrays, with the code's own third-kind integral: (u_r, u_z) *)
Theorem C57_cylinder : forall g Rr (pts : list R3) i p, 0 < Rr -> nth_error pts i = Some p ->
  exists ur uz, nth_error (vc_tang_polar (N := XN) (Fin g) (Fin Rr) (Fin 0) (map xv pts)) i = Some (Fin ur, Fin uz) /\
    nth_error (vc_tang_u (N := XN) (Fin g) (Fin Rr) (Fin 0) (map xv pts)) i = Some (xv (cart_of (azim p) (ur, 0, uz))).
Proof.
  intros g Rr pts i p hR Hi. destruct (vcu_at _ any3 g Rr pts i p third_code hR Hi) as (q & E1 & E2 & _).
  exists (fst (vcR g Rr (rho p) (pz p) q)), (snd (vcR g Rr (rho p) (pz p) q)). split; [exact E1|]. unfold vc_tang_u. rewrite E2. f_equal. f_equal.
  unfold cart_of, px, py, pz. cbn [fst snd]. apply tri; ring.
Qed.
(** longitudinal cylinder *)
Theorem C57_longi : forall g Rr (pts : list R3) i p, 0 < Rr -> nth_error pts i = Some p -> 0 < rho p -> rho p <> Rr ->
  exists v, nth_error (vc_longi_u (N := XN) (Fin g) (Fin Rr) true (map xv pts)) i = Some (xv v) /\
    nth_error (vc_longi_u (N := XN) (Fin g) (Fin Rr) false (map xv pts)) i = Some (xv (cart_of (azim p) v)).
Proof.
  intros g Rr pts i p hR Hi hr NE. unfold vc_longi_u.
  assert (N1 : nn (rho p) Rr < 1) by (apply nn_lt; auto; lra).
  destruct (longi_at _ any3 g Rr pts i p third1_code hR Hi) as (v & Ev & Hv). destruct (Hv N1) as (q & -> & _).
  cbv zeta in Ev. rewrite longi_upsi_X in Ev by auto. exists (0, ClP g Rr (rho p) (pz p) q, 0). rewrite !Ev. split; [reflexivity|]. f_equal.
  unfold cart_of, xv, px, py, pz. cbn [fst snd]. xn. apply tri; f_equal; ring.
Qed.

Lemma trapezoid_comb (f h : R -> R) a b t0 T n : trapezoid (fun t => a * f t + b * h t) t0 T n = a * trapezoid f t0 T n + b * trapezoid h t0 T n.
Proof.
  rewrite (trapezoid_lin (fun t => a * f t) h t0 T n b), (trapezoid_scal f). reflexivity.
Qed.

(** skewed tangential cylinder: for every number of integration points *)
Theorem C57_skewed_tangential : forall g Rr m r psi z n, (2 <= n)%nat -> off_sheet Rr m (r * cos psi, r * sin psi, z) ->
  exists v, svc_tang_u_polar (N := XN) (Fin g) (Fin Rr) (Fin m) n true (Fin r, Fin psi, Fin z) = xv v /\
    svc_tang_u_polar (N := XN) (Fin g) (Fin Rr) (Fin m) n false (Fin r, Fin psi, Fin z) = xv (cart_of psi v).
Proof.
  intros g Rr m r psi z n Hn OFF. destruct (C76_tangential_is_trapezoid_of_biot_savart_rows g Rr m r psi z n Hn OFF) as (F & _ & E1 & E2).
  eexists. split; [exact E2|]. rewrite E1. f_equal. pose proof (sin2_cos2 psi) as SC. unfold Rsqr in SC.
  assert (A1 : trapezoid (fun th => px (F th) * cos psi + py (F th) * sin psi) (PI / 2) (2 * PI) n = cos psi * trapezoid (fun th => px (F th)) (PI / 2) (2 * PI) n + sin psi * trapezoid (fun th => py (F th)) (PI / 2) (2 * PI) n).
  { rewrite <- trapezoid_comb. apply trapezoid_ext. intros; ring. }
  assert (A2 : trapezoid (fun th => - px (F th) * sin psi + py (F th) * cos psi) (PI / 2) (2 * PI) n = (- sin psi) * trapezoid (fun th => px (F th)) (PI / 2) (2 * PI) n + cos psi * trapezoid (fun th => py (F th)) (PI / 2) (2 * PI) n).
  { rewrite <- trapezoid_comb. apply trapezoid_ext. intros; ring. }
  rewrite A1, A2. set (a := trapezoid (fun th => px (F th)) _ _ _). set (b := trapezoid (fun th => py (F th)) _ _ _). set (c := trapezoid (fun th => pz (F th)) _ _ _).
  unfold cart_of, px, py, pz. cbn [fst snd]. apply tri; [|  |reflexivity].
  - transitivity (a * (sin psi * sin psi + cos psi * cos psi)); [rewrite SC; ring|ring].
  - transitivity (b * (sin psi * sin psi + cos psi * cos psi)); [rewrite SC; ring|ring].
Qed.
(** skewed root vortex: whole arrays, all three branches of the code *)
Definition svr_ok (psi : R) (t : X * X * X * X) : Prop := exists a b c, t = (Fin a, Fin b, Fin c, Fin (- a * sin psi + b * cos psi)).
Lemma svr_out_ok r psi z t : svr_ok psi t -> exists v, svr_out (N := XN) true (Fin r, Fin psi, Fin z) t = xv v /\ svr_out (N := XN) false (Fin r, Fin psi, Fin z) t = xv (cart_of psi v).
Proof.
  intros (a & b & c & ->). exists (a * cos psi + b * sin psi, - a * sin psi + b * cos psi, c). split; [reflexivity|].
  pose proof (sin2_cos2 psi) as SC. unfold Rsqr in SC. unfold svr_out, cart_of, xv, px, py, pz. cbn [fst snd]. apply tri; [| |reflexivity]; f_equal.
  - transitivity (a * (sin psi * sin psi + cos psi * cos psi)); [rewrite SC; ring|ring].
  - transitivity (b * (sin psi * sin psi + cos psi * cos psi)); [rewrite SC; ring|ring].
Qed.
Lemma svr_m0_ok G r psi z : r <> 0 -> svr_ok psi (svr_m0 (N := XN) (Fin G) (Fin r, Fin psi, Fin z)).
Proof.
  intros hr. pose proof PI_RGT_0 as HP. pose proof (Rsq_lt r hr). pose proof (Rsq_pos z). assert (0 < sqrt (r * r + z * z)) by (apply sqrt_lt_R0; lra).
  assert (D : 4 * PI * r <> 0) by (apply Rmult_integral_contrapositive_currified; lra).
  pose proof (sin2_cos2 psi) as SC. unfold Rsqr in SC. set (u := G / (4 * PI * r) * (1 + z / sqrt (r * r + z * z))).
  exists (- sin psi * u), (cos psi * u), 0. unfold svr_m0. xn. rewrite xsqrt_fin by lra. rewrite !xdiv_fin by lra. xn. fold u. f_equal. f_equal.
  transitivity (u * (sin psi * sin psi + cos psi * cos psi)); [rewrite SC; ring|ring].
Qed.
Lemma vl_finite xa ya za xe ye ze G : exists a b c, 
  match vl_semiinf_u (N := XN) (Fin xa) (Fin ya) (Fin za) (Fin xe) (Fin ye) (Fin ze) (Fin G) 0 (Fin 0) with Ok o => vl_vec o | Err _ => (NaN, NaN, NaN) end = (Fin a, Fin b, Fin c).
Proof.
  pose proof PI_RGT_0 as HP. unfold vl_semiinf_u. xn. pose proof (Rsq_pos xa). pose proof (Rsq_pos ya). pose proof (Rsq_pos za). rewrite !xsqrt_fin by lra. xn.
  match goal with |- context [Rltb ?d (1 / 1000000000000)] => destruct (Rltb_spec d (1/1000000000000)) as [L|L] end; cbn [orb]; [do 3 eexists; reflexivity|].
  match goal with |- context [Rltb ?d (1 / 100000)] => destruct (Rltb_spec d (1/100000)) as [L2|L2] end; [do 3 eexists; reflexivity|].
  cbn [vl_vec andb Z.leb Z.eqb Z.compare]. rewrite !xdiv_fin by lra. do 3 eexists. reflexivity.
Qed.
Lemma svr_general_ok G m r psi z : svr_ok psi (svr_general (N := XN) (Fin G) (Fin m) (Fin r, Fin psi, Fin z)).
Proof.
  destruct (vl_finite (r * cos psi) (r * sin psi) z (sin (atan m)) 0 (cos (atan m)) G) as (a & b & c & E). exists a, b, c.
  unfold svr_general. 
  match goal with |- context [vl_semiinf_u ?a1 ?a2 ?a3 ?a4 ?a5 ?a6 ?a7 ?a8 ?a9] => change (vl_semiinf_u a1 a2 a3 a4 a5 a6 a7 a8 a9) with (vl_semiinf_u (N := XN) (Fin (r * cos psi)) (Fin (r * sin psi)) (Fin z) (Fin (sin (atan m))) (Fin 0) (Fin (cos (atan m))) (Fin G) 0 (Fin 0)) end.
  revert E. generalize (vl_semiinf_u (N := XN) (Fin (r * cos psi)) (Fin (r * sin psi)) (Fin z) (Fin (sin (atan m))) (Fin 0) (Fin (cos (atan m))) (Fin G) 0 (Fin 0)).
  intros [o|e] E; [rewrite E; reflexivity|discriminate].
Qed.
Lemma svr_plane_ok G m r psi z : svr_ok psi (svr_plane (N := XN) (Fin G) (Fin m) (Fin r, Fin psi, Fin z)).
Proof.
  pose proof PI_RGT_0 as HP. pose proof (Rsq_pos m). assert (W : 0 < sqrt (1 + m * m)) by (apply sqrt_lt_R0; lra). unfold svr_plane, EPS_AXIS. xn. rewrite !xsqrt_fin by lra.
  pose proof (sinchi_lt m psi) as D. destruct (skew_dir_val m) as [ES EC]. rewrite ES in D.
  destruct (Rltb_spec (1/10000000) r) as [L|L].
  - assert (D4 : 4 * PI * r <> 0) by (apply Rgt_not_eq, Rmult_lt_0_compat; lra).
    repeat (progress (rewrite xdiv_fin by lra; xn)). pose proof (sin2_cos2 psi) as SC. unfold Rsqr in SC.
    match goal with |- svr_ok _ (_, _, _, Fin ?u) => set (v := u) end. do 3 eexists. f_equal. f_equal.
    transitivity (v * (sin psi * sin psi + cos psi * cos psi)); [rewrite SC; ring|ring].
  - do 3 eexists. f_equal. f_equal. ring.
Qed.
Theorem C57_skewed_root : forall G m (pts : list R3) i p, nth_error pts i = Some p -> m <> 0 \/ px p <> 0 \/ G = 0 ->
  exists ps cs v, svc_root_u_polar (N := XN) (Fin G) (Fin m) true (map xv pts) = Ok ps /\ svc_root_u_polar (N := XN) (Fin G) (Fin m) false (map xv pts) = Ok cs /\
    nth_error ps i = Some (xv v) /\ nth_error cs i = Some (xv (cart_of (py p) v)).
Proof.
  intros G m pts i p Hi H. unfold svc_root_u_polar. change (neqb XN (Fin G) (nZ XN 0)) with (Reqb G 0). change (neqb XN (Fin m) (nZ XN 0)) with (Reqb m 0).
  assert (HX : nth_error (map xv pts) i = Some (xv p)) by (apply nth_map; auto). destruct p as [[r psi] z].
  assert (K : forall f : X * X * X -> X * X * X * X, svr_ok psi (f (xv (r, psi, z))) -> exists ps cs v,
     Ok (map (fun q : X * X * X => svr_out (N := XN) true q (f q)) (map xv pts)) = Ok ps /\ Ok (map (fun q : X * X * X => svr_out (N := XN) false q (f q)) (map xv pts)) = Ok cs /\
     nth_error ps i = Some (xv v) /\ nth_error cs i = Some (xv (cart_of psi v))).
  { intros f Hf. destruct (svr_out_ok r psi z _ Hf) as (v & V1 & V2). exists (map (fun q : X * X * X => svr_out (N := XN) true q (f q)) (map xv pts)), (map (fun q : X * X * X => svr_out (N := XN) false q (f q)) (map xv pts)), v.
    split; [auto|]. split; [auto|]. rewrite (nth_map _ _ _ _ HX), (nth_map _ _ _ _ HX). split; f_equal; auto. }
  unfold Reqb. destruct (Req_EM_T G 0) as [EG|EG].
  - do 3 eexists. split; [reflexivity|]. split; [reflexivity|]. split; rewrite (nth_map _ _ _ _ HX); f_equal.
    + cbn. xn. instantiate (1 := (r * 0, r * 0, r * 0)). reflexivity.
    + unfold xv, cart_of, px, py, pz. cbn [fst snd]. xn. apply tri; f_equal; ring.
  - destruct (Req_EM_T m 0) as [Em|Em].
    + apply (K (svr_m0 (N := XN) (Fin G))). apply svr_m0_ok. destruct H as [H|[H|H]]; try contradiction. exact H.
    + destruct (map xv pts) as [|x l] eqn:EL; [destruct i; discriminate|]. rewrite <- EL in *.
      destruct (nlt XN _ _).
      * apply (K (svr_general (N := XN) (Fin G) (Fin m))). apply svr_general_ok.
      * apply (K (svr_plane (N := XN) (Fin G) (Fin m))). apply svr_plane_ok.
Qed.

(** ** Where it fails *)
Lemma row_unique g Rr m th x u v : ring_row_velocity g Rr m th x u -> ring_row_velocity g Rr m th x v -> u = v.
Proof.
  intros (A1 & A2 & A3) (B1 & B2 & B3).
  pose proof (is_RInt_gen_unique _ _ A1). pose proof (is_RInt_gen_unique _ _ A2). pose proof (is_RInt_gen_unique _ _ A3).
  pose proof (is_RInt_gen_unique _ _ B1). pose proof (is_RInt_gen_unique _ _ B2). pose proof (is_RInt_gen_unique _ _ B3).
  destruct u as [[u1 u2] u3], v as [[v1 v2] v3]. unfold px, py, pz in *. cbn in *. congruence.
Qed.
Lemma case_off : off_sheet 1 0 (2 * cos 0, 2 * sin 0, 0).
Proof. apply straight_off_sheet; lra. Qed.
(** the skewed longitudinal cylinder returns u_psi twice: at a point where u_r = -T/2 u_psi the polar answer is wrong *)
Theorem C89_skewed_longitudinal_refuted :
  exists v w, svc_longi_u_polar (N := XN) (Fin 1) (Fin 1) (Fin 0) 2 true (Fin 2, Fin 0, Fin 0) = xv v /\
    svc_longi_u_polar (N := XN) (Fin 1) (Fin 1) (Fin 0) 2 false (Fin 2, Fin 0, Fin 0) = xv w /\ w <> cart_of 0 v.
Proof.
  pose proof PI_RGT_0 as HP. destruct (C77_longitudinal_is_trapezoid_of_biot_savart_lines 1 1 0 2 0 0 2 ltac:(lra) ltac:(lia) case_off) as (F & HF & E1 & E2). cbv zeta in *.
  do 2 eexists. split; [exact E2|]. split; [exact E1|].
  assert (FV : forall th, cos th = 0 -> sin th = 1 -> F th = (1 / (20 * PI), 2 / (20 * PI), 0)).
  { intros th C S. specialize (HF th). eapply half_line_unique; [exact HF|]. apply half_line_shift. rewrite C, S, cos_0, sin_0, atan_0, sin_0, cos_0.
    set (a := sub3 (2 * 1, 2 * 0, 0) (1 * 0, 1 * 1, 0)). assert (EL : length3 a = sqrt 5) by (unfold length3, a, inner, sub3, px, py, pz; cbn [fst snd]; f_equal; ring).
    assert (EI : inner a ez = 0) by (unfold a, inner, sub3, ez, px, py, pz; cbn [fst snd]; ring). assert (S5 : sqrt 5 * sqrt 5 = 5) by (apply sqrt_sqrt; lra).
    replace (1 / (20 * PI), 2 / (20 * PI), 0) with (klineR (1 * 1) ez a).
    - apply half_line; [apply ez_unit|]. rewrite EL, EI, Rminus_0_r, S5. lra.
    - unfold klineR. rewrite EL, EI, Rminus_0_r, S5. unfold a, scal3, vprod, sub3, ez, px, py, pz. cbn [fst snd]. apply tri; field; lra. }
  assert (T : forall c : R3 -> R, trapezoid (fun th => c (F th)) (PI / INR 2) (2 * PI) 2 = 2 * PI * c (1 / (20 * PI), 2 / (20 * PI), 0)).
  { intros c. unfold trapezoid. cbn [Nat.sub seq map fold_right INR].
    rewrite !FV; [field| | | |].
    - replace (PI / (1 + 1) + 1 * (2 * PI / 1)) with (PI / 2 + 2 * PI) by (field). rewrite cos_per. apply cos_PI2.
    - replace (PI / (1 + 1) + 1 * (2 * PI / 1)) with (PI / 2 + 2 * PI) by (field). rewrite sin_per. apply sin_PI2.
    - replace (PI / (1 + 1) + 0 * (2 * PI / 1)) with (PI / 2) by field. apply cos_PI2.
    - replace (PI / (1 + 1) + 0 * (2 * PI / 1)) with (PI / 2) by field. apply sin_PI2. }
  rewrite !T. unfold cart_of, px, py, pz. cbn [fst snd]. rewrite cos_0, sin_0. intros Z. injection Z as Z1 Z2.
  assert (A : 2 * PI * (1 / (20 * PI)) = 1 / 10) by (field; lra). assert (B : 2 * PI * (2 / (20 * PI)) = 1 / 5) by (field; lra). rewrite A, B in *. lra.
Qed.
(** svc_u_polar ignores polar_out *)
Theorem C89_skewed_total_refuted :
  (forall (N : Num) gt gl G R m n (pts : list (N * N * N)), svc_u_polar gt gl G R m n true pts = svc_u_polar gt gl G R m n false pts) /\
  exists v, svc_u_polar (N := XN) (Fin 0) (Fin 0) (Fin 1) (Fin 1) (Fin 0) 180 true [(Fin 2, Fin (PI / 2), Fin 0)] = Ok [xv v] /\ 
    svc_u_polar (N := XN) (Fin 0) (Fin 0) (Fin 1) (Fin 1) (Fin 0) 180 false [(Fin 2, Fin (PI / 2), Fin 0)] = Ok [xv v] /\ v <> cart_of (PI / 2) v.
Proof.
  pose proof PI_RGT_0 as HP. split; [reflexivity|]. exists (- (1 / (8 * PI)), 0, 0).
  assert (OFF : off_sheet 1 0 (2 * cos (PI / 2), 2 * sin (PI / 2), 0)) by (apply straight_off_sheet; lra).
  assert (K : svc_u_polar (N := XN) (Fin 0) (Fin 0) (Fin 1) (Fin 1) (Fin 0) 180 false [(Fin 2, Fin (PI / 2), Fin 0)] = Ok [xv (- (1 / (8 * PI)), 0, 0)]).
  { destruct (C77_longitudinal_is_trapezoid_of_biot_savart_lines 0 1 0 2 (PI / 2) 0 180 ltac:(lra) ltac:(lia) OFF) as (F & HF & E1 & _).
    destruct (C76_tangential_is_trapezoid_of_biot_savart_rows 0 1 0 2 (PI / 2) 0 180 ltac:(lia) OFF) as (H & HH & E2 & _). cbv zeta in *.
    assert (T0 : forall f t0 T n, (forall t, f t = 0) -> trapezoid f t0 T n = 0).
    { intros f t0 T n Hf. rewrite (trapezoid_ext f (fun t => 0 * f t)) by (intros; rewrite Hf; ring). rewrite trapezoid_scal. ring. }
    assert (F0 : forall th, F th = zero).
    { intros th. eapply half_line_unique; [apply HF|]. apply half_line_shift. pose proof (half_line (0 * 1) (skew_dir 0) (sub3 (2 * cos (PI / 2), 2 * sin (PI / 2), 0) (1 * cos th, 1 * sin th, 0)) (skew_dir_unit 0) (sheet_line 1 0 _ th OFF)) as L.
      unfold klineR in L. replace zero with (scal3 (0 * 1 / (4 * PI * (length3 (sub3 (2 * cos (PI / 2), 2 * sin (PI / 2), 0) (1 * cos th, 1 * sin th, 0)) * (length3 (sub3 (2 * cos (PI / 2), 2 * sin (PI / 2), 0) (1 * cos th, 1 * sin th, 0)) - inner (sub3 (2 * cos (PI / 2), 2 * sin (PI / 2), 0) (1 * cos th, 1 * sin th, 0)) (skew_dir 0))))) (vprod (skew_dir 0) (sub3 (2 * cos (PI / 2), 2 * sin (PI / 2), 0) (1 * cos th, 1 * sin th, 0)))) at 2; [exact L|].
      unfold Rdiv. rewrite !Rmult_0_l. unfold scal3, zero. apply tri; ring. }
    assert (H0 : forall th, H th = zero).
    { intros th. eapply row_unique; [apply HH|]. replace zero with (row_u 0 1 0 th (2 * cos (PI / 2), 2 * sin (PI / 2), 0)); [apply row_velocity; intros s Hs; apply OFF; auto|].
      unfold row_u, zero, px, py, pz, Rdiv. cbn [fst snd]. apply tri; ring. }
    rewrite !T0 in E1, E2 by (intros; rewrite ?F0, ?H0; reflexivity).
    unfold svc_u_polar. cbn [map]. rewrite E1, E2. unfold svc_root_u_polar.
    change (neqb XN (Fin 1) (nZ XN 0)) with (Reqb 1 0). rewrite (proj2 (Reqb_false 1 0)) by lra. change (neqb XN (Fin 0) (nZ XN 0)) with (Reqb 0 0). rewrite Reqb_refl.
    unfold svr_m0, svr_out. cbn [map bind]. xn. rewrite Rmult_0_l, Rplus_0_r. rewrite xsqrt_fin by lra.
    assert (S4 : sqrt (2 * 2) = 2) by (apply sqrt_square; lra). rewrite S4. rewrite !xdiv_fin by lra. rewrite sin_PI2, cos_PI2. unfold fadd, vadd, xv, px, py, pz, map2. cbn [fst snd]. xn.
    f_equal. f_equal. apply tri; f_equal; field; lra. }
  split; [|split]; [exact K|exact K|]. unfold cart_of, px, py, pz. cbn [fst snd]. rewrite cos_PI2, sin_PI2. intros Z. injection Z as Z1 Z2.
  pose proof (Rinv_0_lt_compat (8 * PI) ltac:(lra)). unfold Rdiv in *. lra.
Qed.
(** the radial velocity of a ring does not vanish above its plane: ∫ cos t / d^{3/2} > 0 *)
Lemma Jc_pos r Rr z : 0 < r -> 0 < Rr -> 0 < (r - Rr) * (r - Rr) + z * z -> 0 < Jc r Rr z.
Proof.
  intros hr hR off. pose proof PI_RGT_0 as HP. assert (P : 0 < r * Rr) by (apply Rmult_lt_0_compat; auto).
  set (e := fun t => 3 * r * Rr * (sin t * sin t) / (dd r Rr z t * dd r Rr z t * sqrt (dd r Rr z t))).
  assert (DP : forall t, 0 < dd r Rr z t /\ 0 < sqrt (dd r Rr z t) /\ 0 < dd r Rr z t * sqrt (dd r Rr z t) /\ sqrt (dd r Rr z t) * sqrt (dd r Rr z t) = dd r Rr z t).
  { intros t. pose proof (dd_pos r Rr z off ltac:(lra) hR t). assert (0 < sqrt (dd r Rr z t)) by (apply sqrt_lt_R0; auto).
    repeat split; auto; [apply Rmult_lt_0_compat; auto|apply sqrt_sqrt; lra]. }
  assert (Ce : forall x, continuous e x).
  { intros x. destruct (DP x) as (D1 & D2 & D3 & D4). apply (ex_derive_continuous e). unfold e, dd in *. auto_derive. 
    change (r * r + Rr * Rr + z * z + - (2 * r * Rr * cos x)) with (r * r + Rr * Rr + z * z - 2 * r * Rr * cos x) in *.
    repeat split; try lra. apply Rgt_not_eq. repeat (apply Rmult_lt_0_compat; [|lra]). lra. }
  assert (I : is_RInt (fun t => cos t * / (dd r Rr z t * sqrt (dd r Rr z t)) - e t) 0 (2 * PI) (sin (2 * PI) / (dd r Rr z (2 * PI) * sqrt (dd r Rr z (2 * PI))) - sin 0 / (dd r Rr z 0 * sqrt (dd r Rr z 0)))).
  { apply (is_RInt_derive (fun t => sin t / (dd r Rr z t * sqrt (dd r Rr z t)))).
    - intros t _. destruct (DP t) as (D1 & D2 & D3 & D4). unfold e, dd in *. 
      auto_derive; change (r * r + Rr * Rr + z * z + - (2 * r * Rr * cos t)) with (r * r + Rr * Rr + z * z - 2 * r * Rr * cos t) in *.
      + repeat split; lra.
      + set (d := r * r + Rr * Rr + z * z - 2 * r * Rr * cos t) in *. set (s := sqrt d) in *. rewrite <- D4. field. repeat split; lra.
    - intros t _. apply (continuous_minus (fun t => cos t * / (dd r Rr z t * sqrt (dd r Rr z t))) e); auto.
      apply (continuous_mult cos (fun t => / (dd r Rr z t * sqrt (dd r Rr z t)))); [apply cos_cont|apply dd_cont3; auto; lra]. }
  rewrite sin_2PI, sin_0 in I. unfold Rdiv in I. rewrite !Rmult_0_l, Rminus_0_r in I.
  assert (Q : is_RInt e 0 (2 * PI) (Jc r Rr z - 0)).
  { assert (K := is_RInt_minus _ _ _ _ _ _ (Jc_int r Rr z off ltac:(lra) hR) I). eapply is_RInt_ext; [|exact K]. intros t _. match goal with |- ?l = ?r' => change (cos t * / (dd r Rr z t * sqrt (dd r Rr z t)) + - (cos t * / (dd r Rr z t * sqrt (dd r Rr z t)) - e t) = e t) end. ring. }
  rewrite Rminus_0_r in Q. rewrite <- (RInt_val _ _ _ _ Q).
  assert (POS : forall t, sin t <> 0 -> 0 < e t).
  { intros t S. destruct (DP t) as (D1 & D2 & D3 & D4). unfold e. apply Rdiv_lt_0_compat.
    - apply Rmult_lt_0_compat; [rewrite Rmult_assoc; lra|apply Rsq_lt; auto].
    - rewrite Rmult_assoc. apply Rmult_lt_0_compat; auto. }
  assert (H1 : 0 < RInt e 0 PI). { apply RInt_gt_0; auto. intros x Hx. apply POS. apply Rgt_not_eq. apply sin_gt_0; lra. }
  assert (H2 : 0 < RInt e PI (2 * PI)). { apply RInt_gt_0; auto; [lra|]. intros x Hx. apply POS. apply Rlt_not_eq. apply sin_lt_0; lra. }
  rewrite <- (RInt_Chasles e 0 PI (2 * PI)); [|apply cont_ex_RInt; auto|apply cont_ex_RInt; auto]. change plus with Rplus. lra.
Qed.
(** rings_u with polar_out sums radial velocities about different axes: two equal rings side by side, seen from the middle
    and above: no azimuth turns the polar answer into the Cartesian one *)
Theorem C89_rings_refuted : exists ur uz u,
  rings_u_pol (N := XN) (Fin 0) [(Fin 1, Fin 1, (Fin 5, Fin 0, Fin 0)); (Fin 1, Fin 1, (Fin (-5), Fin 0, Fin 0))] (Fin 0, Fin 0, Fin 1) = (Fin ur, Fin uz) /\
  rings_u (N := XN) (Fin 0) [(Fin 1, Fin 1, (Fin 5, Fin 0, Fin 0)); (Fin 1, Fin 1, (Fin (-5), Fin 0, Fin 0))] (Fin 0, Fin 0, Fin 1) = xv u /\
  forall psi, u <> cart_of psi (ur, 0, uz).
Proof.
  pose proof PI_RGT_0 as HP. pose proof (Jc_pos 5 1 1 ltac:(lra) ltac:(lra) ltac:(lra)) as J.
  assert (E5 : forall x, x * x = 25 -> sqrt (x * x + 0 * 0) = 5). { intros x Hx. rewrite Hx. replace (25 + 0 * 0) with (5 * 5) by ring. apply sqrt_square. lra. }
  assert (V : forall x, x * x = 25 -> ring_u_pol (N := XN) (Fin 1) (Fin 1) (Fin 0) (Fin x, Fin 0, Fin 1) = (Fin (Wr 1 1 5 1), Fin (Wz 1 1 5 1))).
  { intros x Hx. rewrite (pol_reg 1 1 (Fin 0) x 0 1); rewrite ?(E5 x Hx); auto; try lra.
    - unfold near_axis. lra.
    - unfold near_ring. intros [A _]. rewrite Rabs_right in A by lra. lra. }
  assert (WP : 0 < Wr 1 1 5 1). { unfold Wr. repeat apply Rmult_lt_0_compat; auto; try lra. apply Rinv_0_lt_compat. lra. }
  set (a := Wr 1 1 5 1) in *. set (b := Wz 1 1 5 1) in *.
  exists (a + a), (b + b), (0, 0, b + b).
  assert (A1 : nlt XN (nZ XN 0) (nabs XN (Fin 1)) = true) by (xn; rewrite Rabs_right by lra; apply Rltb_true; lra).
  assert (P1 : shift (N := XN) (Fin 5, Fin 0, Fin 0) (Fin 0, Fin 0, Fin 1) = (Fin (-5), Fin 0, Fin 1)) by (unfold shift; xn; apply tri; f_equal; ring).
  assert (P2 : shift (N := XN) (Fin (-5), Fin 0, Fin 0) (Fin 0, Fin 0, Fin 1) = (Fin 5, Fin 0, Fin 1)) by (unfold shift; xn; apply tri; f_equal; ring).
  split; [|split].
  - unfold rings_u_pol. cbn [fold_left]. rewrite A1, P1, P2. rewrite (V (-5)), (V 5) by ring. cbn [fst snd]. xn. cbn [fst snd]. xn. f_equal; f_equal; ring.
  - unfold rings_u, ring_u. cbn [fold_left]. rewrite A1, P1, P2. rewrite (V (-5)), (V 5) by ring. unfold cart_of_polar2, vadd, xv, px, py, pz. cbn [fst snd]. xn.
    destruct (Ratan2_polar_all 0 (-5)) as [C1 S1]. destruct (Ratan2_polar_all 0 5) as [C2 S2]. rewrite (E5 (-5)) in C1, S1 by ring. rewrite (E5 5) in C2, S2 by ring.
    assert (c1 : cos (Ratan2 0 (-5)) = -1) by lra. assert (s1 : sin (Ratan2 0 (-5)) = 0) by lra. assert (c2 : cos (Ratan2 0 5) = 1) by lra. assert (s2 : sin (Ratan2 0 5) = 0) by lra.
    rewrite c1, s1, c2, s2. apply tri; f_equal; ring.
  - intros psi Z. unfold cart_of, px, py, pz in Z. cbn [fst snd] in Z. injection Z as Z1 Z2. rewrite Rmult_0_l in *.
    pose proof (sin2_cos2 psi) as SC. unfold Rsqr in SC. assert (C0 : cos psi = 0) by nra. assert (S0 : sin psi = 0) by nra. rewrite C0, S0 in SC. lra.
Qed.
