(** * Properties of VortexCylinderSkewed.py: C66-C68, C76, C77 *)
From Coquelicot Require Import Coquelicot.
From Coq Require Import ZArith List Bool Arith Lia String Reals Lra Psatz.
From Verif Require Import Num NumR NumX M_Elliptic M_Line M_Cylinder M_Doublet M_Skewed L_List L_X L_Angles L_Built Spec SpecBS L_Calc L_Ell P_Line P_Doublet.
Import ListNotations.
Local Open Scope R_scope.

(** ** The trapezoidal rule *)
Lemma trapz_X y x : trapz (N := XN) (map Fin y) (map Fin x) = Fin (trapz (N := RN) y x).
Proof.
  revert x. induction y as [|y0 y IH]; intros [|x0 x]; try reflexivity.
  - destruct y; reflexivity.
  - destruct y as [|y1 y]; [reflexivity|]. destruct x as [|x1 x]; [reflexivity|].
    change (trapz (N := XN) (map Fin (y0 :: y1 :: y)) (map Fin (x0 :: x1 :: x))) with
      (xadd (xdiv (Fin ((x1 - x0) * (y1 + y0))) (Fin 2)) (trapz (N := XN) (map Fin (y1 :: y)) (map Fin (x1 :: x)))).
    rewrite IH. rewrite xdiv_fin by lra. reflexivity.
Qed.
Lemma trapz_seq (f g : nat -> R) k a :
  trapz (N := RN) (map f (seq a (S k))) (map g (seq a (S k))) = lsum (map (fun i => (g (S i) - g i) * (f (S i) + f i) / 2) (seq a k)).
Proof.
  revert a. induction k as [|k IH]; intros a; [reflexivity|].
  change (seq a (S (S k))) with (a :: seq (S a) (S k)).
  change (seq a (S k)) with (a :: seq (S a) k).
  set (F := fun i => (g (S i) - g i) * (f (S i) + f i) / 2).
  change (lsum (map F (a :: seq (S a) k))) with (F a + lsum (map F (seq (S a) k))).
  unfold F at 2. rewrite <- (IH (S a)). reflexivity.
Qed.
Lemma linspace_seq a b n : (2 <= n)%nat -> linspace (N := RN) a b n = map (fun i => a + INR i * ((b - a) / INR (n - 1))) (seq 0 n).
Proof.
  intros Hn. destruct n as [|[|k]]; try lia. unfold linspace. apply map_ext. intros i.
  cbn [nadd nmul nsub ndiv nZ RN T]. rewrite !INR_IZR_INZ. replace (S (S k) - 1)%nat with (S k) by lia. reflexivity.
Qed.
Lemma trapezoid_trapz (f : R -> R) (t0 T : R) n : (2 <= n)%nat ->
  let vt := map (fun t => t0 + t) (linspace (N := RN) 0 T n) in
  trapz (N := RN) (map f vt) vt = trapezoid f t0 T n.
Proof.
  intros Hn vt. unfold vt. rewrite linspace_seq by auto. rewrite !map_map.
  assert (E : seq 0 n = seq 0 (S (n - 1))) by (f_equal; lia). rewrite E. rewrite trapz_seq. unfold trapezoid, lsum. f_equal. apply map_ext. intros i.
  rewrite Rminus_0_r, !Rplus_0_l. rewrite S_INR.
  set (h := T / INR (n - 1)). field.
Qed.
Lemma trapezoid_ext f g t0 T n : (forall t, f t = g t) -> trapezoid f t0 T n = trapezoid g t0 T n.
Proof. intros H. unfold trapezoid. f_equal. apply map_ext. intros i. rewrite !H. reflexivity. Qed.
Lemma trapezoid_lin f g t0 T n k : trapezoid (fun t => f t + k * g t) t0 T n = trapezoid f t0 T n + k * trapezoid g t0 T n.
Proof.
  unfold trapezoid. set (h := T / INR (n - 1)). induction (seq 0 (n - 1)) as [|i l IH]; cbn [map fold_right]; [ring|]. rewrite IH. field.
Qed.
Lemma trapezoid_scal g t0 T n k : trapezoid (fun t => k * g t) t0 T n = k * trapezoid g t0 T n.
Proof.
  unfold trapezoid. set (h := T / INR (n - 1)). induction (seq 0 (n - 1)) as [|i l IH]; cbn [map fold_right]; [ring|]. rewrite IH. field.
Qed.
Lemma trapezoid_const k t0 T n : (2 <= n)%nat -> trapezoid (fun _ => k) t0 T n = k * T.
Proof.
  intros Hn. unfold trapezoid. set (h := T / INR (n - 1)).
  assert (E : forall l : list nat, fold_right Rplus 0 (map (fun _ => h * ((k + k) / 2)) l) = INR (List.length l) * (h * k)).
  { induction l as [|i l IH]; [cbn; ring|]. cbn [map fold_right]. rewrite IH. change (List.length (i :: l)) with (S (List.length l)). rewrite S_INR. field. }
  rewrite E, seq_length. unfold h. field. apply not_0_INR. lia.
Qed.
Lemma svc_trap_X n (f : X -> X) (g : R -> R) : (2 <= n)%nat -> (forall t, f (Fin t) = Fin (g t)) ->
  svc_trap (N := XN) n f = Fin (trapezoid g (PI / 2) (2 * PI) n).
Proof.
  intros Hn H. unfold svc_trap, svc_vtheta. 
  change (nmul XN (nZ XN 2) (npi XN)) with (Fin (2 * PI)). change (nZ XN 0) with (Fin 0). rewrite linspace_X.
  assert (E : map (fun t : X => nadd XN (ndiv XN (npi XN) (nZ XN 2)) t) (map Fin (linspace (N := RN) 0 (2 * PI) n)) = map Fin (map (fun t => PI / 2 + t) (linspace (N := RN) 0 (2 * PI) n))).
  { rewrite !map_map. apply map_ext. intros t. cbn [nadd ndiv npi nZ XN]. rewrite xdiv_fin by lra. reflexivity. }
  nT. rewrite E. rewrite (map_fin f g) by auto. rewrite trapz_X. rewrite trapezoid_trapz by auto. reflexivity.
Qed.
(** ** C67 *)
Theorem C67_skew_components_rotation :
  forall ux uz m, exists uzeta uxi, skew_components (N := XN) (Fin ux) (Fin uz) (Fin m) = (Fin uzeta, Fin uxi) /\
    uzeta = uz * cos (atan m) + ux * sin (atan m) /\ uxi = - uz * sin (atan m) + ux * cos (atan m) /\
    uzeta ^ 2 + uxi ^ 2 = ux ^ 2 + uz ^ 2 /\
    (* the opposite skew undoes it *)
    skew_components (N := XN) (Fin uxi) (Fin uzeta) (Fin (- m)) = (Fin uz, Fin ux).
Proof.
  intros ux uz m. pose proof (Rsq_pos m). set (w := sqrt (1 + m * m)). assert (W : 0 < w) by (apply sqrt_lt_R0; lra).
  assert (WW : w * w = 1 + m * m) by (apply sqrt_sqrt; lra).
  assert (ES : sin (atan m) = m / w) by (rewrite sin_atan; reflexivity).
  assert (EC : cos (atan m) = 1 / w) by (rewrite cos_atan; reflexivity).
  exists (uz * (1 / w) + ux * (m / w)), (- uz * (m / w) + ux * (1 / w)).
  split; [|split; [|split; [|split]]].
  - unfold skew_components. xn. rewrite xsqrt_fin by lra. fold w. rewrite !xdiv_fin by lra. reflexivity.
  - rewrite ES, EC. reflexivity.
  - rewrite ES, EC. reflexivity.
  - transitivity ((ux ^ 2 + uz ^ 2) * ((1 + m * m) / (w * w))); [field; lra|rewrite WW; field; lra].
  - unfold skew_components. xn. replace (1 + - m * - m) with (1 + m * m) by ring. rewrite xsqrt_fin by lra. fold w. rewrite !xdiv_fin by lra. xn.
    f_equal; f_equal.
    + transitivity (uz * ((1 + m * m) / (w * w))); [field; lra|rewrite WW; field; lra].
    + transitivity (ux * ((1 + m * m) / (w * w))); [field; lra|rewrite WW; field; lra].
Qed.
Theorem C67_polar_components_rotation :
  forall ux uy psi, exists ur up, polar_components (N := XN) (Fin ux) (Fin uy) (Fin psi) = (Fin ur, Fin up) /\
    ur ^ 2 + up ^ 2 = ux ^ 2 + uy ^ 2 /\ ux = ur * cos psi - up * sin psi /\ uy = ur * sin psi + up * cos psi /\
    polar_components (N := XN) (Fin ur) (Fin up) (Fin (- psi)) = (Fin ux, Fin uy).
Proof.
  intros ux uy psi. pose proof (sin2_cos2 psi) as SC. unfold Rsqr in SC.
  exists (ux * cos psi + uy * sin psi), (- ux * sin psi + uy * cos psi). split; [reflexivity|].
  assert (A : ux = (ux * cos psi + uy * sin psi) * cos psi - (- ux * sin psi + uy * cos psi) * sin psi).
  { transitivity (ux * (sin psi * sin psi + cos psi * cos psi)); [rewrite SC; ring|ring]. }
  assert (B : uy = (ux * cos psi + uy * sin psi) * sin psi + (- ux * sin psi + uy * cos psi) * cos psi).
  { transitivity (uy * (sin psi * sin psi + cos psi * cos psi)); [rewrite SC; ring|ring]. }
  repeat split; auto.
  - transitivity ((ux ^ 2 + uy ^ 2) * (sin psi * sin psi + cos psi * cos psi)); [ring|rewrite SC; ring].
  - unfold polar_components. xn. rewrite cos_neg, sin_neg. f_equal; f_equal; [rewrite A at 3|rewrite B at 3]; ring.
Qed.
(** ** C66 *)
Lemma sqrt_gt m t : 0 < sqrt (1 + m * m) + m * cos t.
Proof.
  pose proof (Rsq_pos m). pose proof (COS_bound t) as [C1 C2].
  assert (A : Rabs m < sqrt (1 + m * m)).
  { rewrite <- sqrt_Rsqr_abs. apply sqrt_lt_1; unfold Rsqr; lra. }
  assert (B : - Rabs m <= m * cos t).
  { destruct (Rle_dec 0 m); [rewrite Rabs_right by lra|rewrite Rabs_left by lra]; nra. }
  lra.
Qed.
Lemma svc_int_X g Rr m r psi z (ai bi : X -> X) (a b : R -> R) th :
  0 < Rr * Rr + r * r + z * z - 2 * Rr * r * cos (th - psi) ->
  2 * sqrt ((Rr * Rr + r * r + z * z - 2 * Rr * r * cos (th - psi)) * (1 + m * m)) + (2 * m * Rr * cos th - 2 * m * r * cos psi - 2 * z) <> 0 ->
  ai (Fin th) = Fin (a th) -> bi (Fin th) = Fin (b th) ->
  svc_int (N := XN) (Fin g) (Fin Rr) (Fin m) (Fin r) (Fin psi) (Fin z) ai bi (Fin th) =
  let A := Rr * Rr + r * r + z * z - 2 * Rr * r * cos (th - psi) in
  Fin ((a th * sqrt (1 + m * m) + b th * sqrt A) * (2 * g / (4 * PI) / (sqrt A * (2 * sqrt (A * (1 + m * m)) + (2 * m * Rr * cos th - 2 * m * r * cos psi - 2 * z))))).
Proof.
  intros HA HD Ea Eb. pose proof PI_RGT_0. pose proof (Rsq_pos m). unfold svc_int, svc_D. rewrite Ea, Eb.
  unfold svc_a, svc_b, svc_c. xn. set (A := Rr * Rr + r * r + z * z - 2 * Rr * r * cos (th - psi)) in *.
  assert (0 < sqrt A) by (apply sqrt_lt_R0; auto).
  assert (0 <= A * (1 + m * m)) by (apply Rmult_le_pos; lra).
  rewrite !xsqrt_fin by lra. xn. rewrite !xdiv_fin by (try lra; apply Rmult_integral_contrapositive_currified; lra). reflexivity.
Qed.
Theorem C66_rotor_centre :
  (* for every skew, radius, intensity and number of integration points, exactly gamma/2 *)
  forall g Rr m psi (n : nat), 0 < Rr -> (2 <= n)%nat ->
  exists ux uy, svc_tang_u_polar (N := XN) (Fin g) (Fin Rr) (Fin m) n false (Fin 0, Fin psi, Fin 0) = (Fin ux, Fin uy, Fin (g / 2)).
Proof.
  intros g Rr m psi n HR Hn. pose proof PI_RGT_0 as HP. pose proof (Rsq_pos m). pose proof (Rsq_lt Rr ltac:(lra)).
  assert (HA : forall th, Rr * Rr + 0 * 0 + 0 * 0 - 2 * Rr * 0 * cos (th - psi) = Rr * Rr) by (intros; ring).
  assert (ES : sqrt (Rr * Rr * (1 + m * m)) = Rr * sqrt (1 + m * m)) by (rewrite sqrt_mult by lra; rewrite sqrt_square by lra; reflexivity).
  assert (HD : forall th, 2 * sqrt ((Rr * Rr + 0 * 0 + 0 * 0 - 2 * Rr * 0 * cos (th - psi)) * (1 + m * m)) + (2 * m * Rr * cos th - 2 * m * 0 * cos psi - 2 * 0) = 2 * Rr * (sqrt (1 + m * m) + m * cos th)).
  { intros th. rewrite HA, ES. ring. }
  assert (HP2 : forall th, 0 < 2 * Rr * (sqrt (1 + m * m) + m * cos th)).
  { intros th. pose proof (sqrt_gt m th). apply Rmult_lt_0_compat; lra. }
  unfold svc_tang_u_polar.
  assert (K : forall (ai bi : X -> X) (a b : R -> R), (forall t, ai (Fin t) = Fin (a t)) -> (forall t, bi (Fin t) = Fin (b t)) ->
     svc_trap (N := XN) n (svc_int (N := XN) (Fin g) (Fin Rr) (Fin m) (Fin 0) (Fin psi) (Fin 0) ai bi) =
     Fin (trapezoid (fun th => (a th * sqrt (1 + m * m) + b th * Rr) * (2 * g / (4 * PI) / (Rr * (2 * Rr * (sqrt (1 + m * m) + m * cos th))))) (PI/2) (2 * PI) n)).
  { intros ai bi a b Ea Eb. apply svc_trap_X; auto. intros th. 
    rewrite (svc_int_X g Rr m 0 psi 0 ai bi a b th); auto.
    - cbv zeta. rewrite HD, HA, sqrt_square by lra. reflexivity.
    - rewrite HA. lra.
    - rewrite HD. pose proof (HP2 th). lra. }
  eexists _, _.
  rewrite (K _ _ (fun th => Rr * 0 * cos th) (fun th => - Rr * cos th)) by (intros; xn; reflexivity).
  rewrite (K _ _ (fun th => Rr * 0 * sin th) (fun th => - Rr * sin th)) by (intros; xn; reflexivity).
  rewrite (K _ _ (fun th => Rr * (Rr - 0 * cos (th - psi))) (fun th => Rr * m * cos th)) by (intros; xn; reflexivity).
  f_equal. f_equal.
  transitivity (trapezoid (fun _ => g / (4 * PI)) (PI / 2) (2 * PI) n).
  - apply trapezoid_ext. intros th. pose proof (sqrt_gt m th). field. repeat split; lra.
  - rewrite trapezoid_const by auto. field. lra.
Qed.
Example C66_nonvacuous : 0 < 1 /\ (2 <= 180)%nat.
Proof. split; [lra|lia]. Qed.

(** ** C68 *)
Definition skew_dir (m : R) : R3 := (sin (atan m), 0, cos (atan m)).
Lemma skew_dir_unit m : unit3 (skew_dir m).
Proof. unfold unit3, inner, skew_dir, px, py, pz. cbn [fst snd]. pose proof (sin2_cos2 (atan m)) as H. unfold Rsqr in H. lra. Qed.
Lemma skew_dir_val m : sin (atan m) = m / sqrt (1 + m * m) /\ cos (atan m) = 1 / sqrt (1 + m * m).
Proof. rewrite sin_atan, cos_atan. auto. Qed.
Definition rotor_pt (r psi : R) : R3 := (r * cos psi, r * sin psi, 0).
Lemma rotor_len r psi : 0 <= r -> length3 (rotor_pt r psi) = r.
Proof.
  intros H. unfold length3, inner, rotor_pt, px, py, pz. cbn [fst snd]. pose proof (sin2_cos2 psi) as SC. unfold Rsqr in SC.
  replace (r * cos psi * (r * cos psi) + r * sin psi * (r * sin psi) + 0 * 0) with (r * r * (sin psi * sin psi + cos psi * cos psi)) by ring.
  rewrite SC, Rmult_1_r. apply sqrt_square. auto.
Qed.
Lemma rotor_den r psi m : inner (rotor_pt r psi) (skew_dir m) = r * cos psi * sin (atan m).
Proof. unfold inner, rotor_pt, skew_dir, px, py, pz. cbn [fst snd]. ring. Qed.
Lemma sinchi_lt m psi : 0 < 1 - cos psi * sin (atan m).
Proof.
  destruct (skew_dir_val m) as [-> _]. pose proof (Rsq_pos m). assert (W : 0 < sqrt (1 + m * m)) by (apply sqrt_lt_R0; lra).
  pose proof (sqrt_gt (- m) psi) as G. replace (- m * - m) with (m * m) in G by ring.
  apply Rmult_lt_reg_r with (sqrt (1 + m * m)); auto. rewrite Rmult_0_l.
  replace ((1 - cos psi * (m / sqrt (1 + m * m))) * sqrt (1 + m * m)) with (sqrt (1 + m * m) + - m * cos psi) by (field; lra). auto.
Qed.
(** the rotor-plane velocity: the half-line closed form there *)
Lemma plane_kline G m r psi : 0 < r ->
  klineR G (skew_dir m) (rotor_pt r psi) =
  (let f := G / (4 * PI * r) in let D := 1 - cos psi * sin (atan m) in
   (- sin psi * (f * (1 / D * cos (atan m))), cos psi * (f * (1 / D * cos (atan m))), f * (1 / D * sin (atan m) * sin psi))).
Proof.
  intros Hr. unfold klineR. rewrite rotor_len, rotor_den by lra. pose proof (sinchi_lt m psi). pose proof PI_RGT_0.
  assert (r - r * cos psi * sin (atan m) <> 0).
  { replace (r - r * cos psi * sin (atan m)) with (r * (1 - cos psi * sin (atan m))) by ring. apply Rgt_not_eq, Rmult_lt_0_compat; auto. }
  unfold scal3, vprod, rotor_pt, skew_dir, px, py, pz. cbn [fst snd]. cbv zeta.
  f_equal; [f_equal|]; field; repeat split; lra.
Qed.
Lemma general_pt G m r psi z : let a := (r * cos psi, r * sin psi, z) in
  1/1000000000000 <= length3 a * (length3 a - inner a (skew_dir m)) -> 1/100000 <= length3 a ->
  svr_general (N := XN) (Fin G) (Fin m) (Fin r, Fin psi, Fin z) =
  let u := klineR G (skew_dir m) a in (Fin (px u), Fin (py u), Fin (pz u), Fin (- px u * sin psi + py u * cos psi)).
Proof.
  intros a H1 H2. pose proof PI_RGT_0. unfold svr_general.
  pose proof (vl_X G (skew_dir m) a 0 0 (or_introl eq_refl)) as V. unfold a in V at 1 2 3. unfold skew_dir in V at 1 2 3. cbn [px py pz fst snd] in V.
  assert (EV : vl_semiinf_u (N := XN) (nmul XN (Fin r) (ncos XN (Fin psi))) (nmul XN (Fin r) (nsin XN (Fin psi))) (Fin z) (nsin XN (natan XN (Fin m))) (nZ XN 0) (ncos XN (natan XN (Fin m))) (Fin G) 0 (nZ XN 0) =
     vl_semiinf_u (N := XN) (Fin (r * cos psi)) (Fin (r * sin psi)) (Fin z) (Fin (sin (atan m))) (Fin 0) (Fin (cos (atan m))) (Fin G) 0 (Fin 0)) by reflexivity.
  unfold px, py, pz in V. cbn [fst snd] in V. unfold px, py, pz. rewrite EV. clear EV. etransitivity; [rewrite V; reflexivity|]. clear V. cbv zeta.
  change (inner a (skew_dir m)) with (inner a (sin (atan m), 0, cos (atan m))) in *.
  rewrite (proj2 (Rltb_false _ _)), (proj2 (Rltb_false (length3 a) _)) by auto. cbn [orb Z.eqb vl_vec].
  rewrite xdiv_fin by lra. xn. unfold klineR. change (skew_dir m) with (sin (atan m), 0, cos (atan m)).
  destruct (vprod (sin (atan m), 0, cos (atan m)) a) as [[v1 v2] v3]. unfold scal3, px, py, pz. cbn [fst snd].
  assert (length3 a <> 0) by lra.
  assert (length3 a - inner a (sin (atan m), 0, cos (atan m)) <> 0) by (intros E; rewrite E, Rmult_0_r in H1; lra).
  f_equal; [f_equal; [f_equal|]|]; f_equal; field; repeat split; auto; lra.
Qed.
Lemma svr_plane_X G m r psi : 1/10000000 < r ->
  svr_plane (N := XN) (Fin G) (Fin m) (Fin r, Fin psi, Fin 0) =
  let u := klineR G (skew_dir m) (rotor_pt r psi) in (Fin (px u), Fin (py u), Fin (pz u), Fin (- px u * sin psi + py u * cos psi)).
Proof.
  intros Hr. pose proof PI_RGT_0. pose proof (sinchi_lt m psi) as D. pose proof (Rsq_pos m). destruct (skew_dir_val m) as [ES EC].
  unfold svr_plane. change (nlt XN (EPS_AXIS (N := XN)) (Fin r)) with (Rltb (1/10000000) r). rewrite (proj2 (Rltb_true _ _)) by auto.
  xn. assert (W : 0 < sqrt (1 + m * m)) by (apply sqrt_lt_R0; lra). rewrite xsqrt_fin by lra. rewrite (xdiv_fin 1 (sqrt (1 + m * m))), (xdiv_fin m) by lra. xn.
  rewrite <- ES, <- EC. assert (0 < 4 * PI * r) by (apply Rmult_lt_0_compat; lra). rewrite (xdiv_fin G), (xdiv_fin 1) by lra. xn.
  rewrite plane_kline by lra. unfold px, py, pz. cbn [fst snd]. do 2 f_equal.
  pose proof (sin2_cos2 psi) as SC. unfold Rsqr in SC. set (K := G / (4 * PI * r) * (1 / (1 - cos psi * sin (atan m)) * cos (atan m))).
  transitivity (K * (sin psi * sin psi + cos psi * cos psi)); [rewrite SC; ring|ring].
Qed.
(** rotor plane: all z are zero *)
Lemma amax_zero (pts : list (R * R)) : pts <> [] -> 
  nlt XN (nZ XN 0) (amax (N := XN) (map (fun p : X * X * X => xabs (snd p)) (map (fun q => (Fin (fst q), Fin (snd q), Fin 0)) pts))) = false.
Proof.
  intros H. rewrite map_map. cbn [snd xabs]. rewrite Rabs_R0.
  destruct (amax_fin (map (fun _ => 0) pts)) as (M & E & I & _); [destruct pts; [contradiction|discriminate]|].
  rewrite map_map in E. rewrite E. apply in_map_iff in I. destruct I as (x & <- & _). xn. apply Rltb_false. lra.
Qed.
Lemma amax_nonzero (pts : list (R * R * R)) p : In p pts -> snd p <> 0 ->
  nlt XN (nZ XN 0) (amax (N := XN) (map (fun p : X * X * X => xabs (snd p)) (map (fun q => (Fin (fst (fst q)), Fin (snd (fst q)), Fin (snd q))) pts))) = true.
Proof.
  intros HI Hz. rewrite map_map. cbn [snd xabs].
  destruct (amax_fin (map (fun q : R * R * R => Rabs (snd q)) pts)) as (M & E & I & U); [destruct pts; [contradiction|discriminate]|].
  rewrite map_map in E. rewrite E. xn. apply Rltb_true.
  specialize (U (Rabs (snd p)) ltac:(apply in_map_iff; exists p; auto)). pose proof (Rabs_pos_lt _ Hz). lra.
Qed.
Definition lift_pt (q : R * R * R) : X * X * X := (Fin (fst (fst q)), Fin (snd (fst q)), Fin (snd q)).
Theorem C68_rotor_plane_is_half_line_partial :
  (* off the neighbourhood of the axis the analytical rotor-plane branch, the general branch taken because some other
     point of the array has z<>0, and the Biot-Savart integral of the skewed half line all agree *)
  forall G m r psi (others : list (R * R * R)) p', G <> 0 -> m <> 0 ->
  1/100000 <= r -> 1/1000000000000 <= r * r * (1 - cos psi * (m / sqrt (1 + m * m))) ->
  In p' others -> snd p' <> 0 ->
  exists u, 
    svc_root_u_polar (N := XN) (Fin G) (Fin m) false [lift_pt (r, psi, 0)] = Ok [xv u] /\
    (exists rest, svc_root_u_polar (N := XN) (Fin G) (Fin m) false (map lift_pt ((r, psi, 0) :: others)) = Ok (xv u :: rest)) /\
    half_line_velocity G zero (m / sqrt (1 + m * m), 0, 1 / sqrt (1 + m * m)) (r * cos psi, r * sin psi, 0) u.
Proof.
  intros G m r psi others p' HG Hm Hr Hd HI Hz. destruct (skew_dir_val m) as [ES EC]. rewrite <- ES, <- EC in *.
  exists (klineR G (skew_dir m) (rotor_pt r psi)).
  unfold svc_root_u_polar. change (neqb XN (Fin G) (nZ XN 0)) with (Reqb G 0). change (neqb XN (Fin m) (nZ XN 0)) with (Reqb m 0).
  rewrite (proj2 (Reqb_false G 0)), (proj2 (Reqb_false m 0)) by auto.
  assert (ED : length3 (rotor_pt r psi) * (length3 (rotor_pt r psi) - inner (rotor_pt r psi) (skew_dir m)) = r * r * (1 - cos psi * sin (atan m))) by (rewrite rotor_len, rotor_den by lra; ring).
  split; [|split].
  - change [lift_pt (r, psi, 0)] with (map (fun q : R * R => (Fin (fst q), Fin (snd q), Fin 0)) [(r, psi)]). 
    change (nabs XN) with xabs. nT. rewrite (amax_zero [(r, psi)]) by discriminate. cbn [map fst snd]. rewrite svr_plane_X by lra. reflexivity.
  - exists (map (fun p => svr_out (N := XN) false p (svr_general (N := XN) (Fin G) (Fin m) p)) (map lift_pt others)).
    assert (AM := amax_nonzero ((r, psi, 0) :: others) p' (or_intror HI) Hz). change (nabs XN) with xabs. nT. unfold lift_pt in *. rewrite AM. cbn [map fst snd].
    pose proof (general_pt G m r psi 0) as GP. cbv zeta in GP. unfold rotor_pt in ED |- *. rewrite GP by (rewrite ?ED; try (fold (rotor_pt r psi); rewrite rotor_len by lra); lra). reflexivity.
  - apply (half_line G (skew_dir m)); [apply skew_dir_unit|]. rewrite ED. lra.
Qed.
Example C68_nonvacuous : 1/100000 <= 1 /\ 1/1000000000000 <= 1 * 1 * (1 - cos 0 * (-1 / sqrt (1 + -1 * -1))).
Proof.
  split; [lra|]. rewrite cos_0. assert (0 < sqrt (1 + -1 * -1)) by (apply sqrt_lt_R0; lra).
  assert (0 < / sqrt (1 + -1 * -1)) by (apply Rinv_0_lt_compat; auto). unfold Rdiv in *. lra.
Qed.
Theorem C68_near_axis_refuted :
  (* between 1e-7 and 1e-5 of the axis the two branches disagree: the value at a rotor-plane point depends on whether
     the array also holds a point off the plane *)
  forall G m r psi (others : list (R * R * R)) p', G <> 0 -> m <> 0 -> 1/10000000 < r -> r < 1/100000 ->
  In p' others -> snd p' <> 0 ->
  exists u rest, svc_root_u_polar (N := XN) (Fin G) (Fin m) false [lift_pt (r, psi, 0)] = Ok [xv u] /\ u <> zero /\
    svc_root_u_polar (N := XN) (Fin G) (Fin m) false (map lift_pt ((r, psi, 0) :: others)) = Ok (xv zero :: rest).
Proof.
  intros G m r psi others p' HG Hm Hr1 Hr2 HI Hz. pose proof PI_RGT_0 as HP.
  exists (klineR G (skew_dir m) (rotor_pt r psi)), (map (fun p => svr_out (N := XN) false p (svr_general (N := XN) (Fin G) (Fin m) p)) (map lift_pt others)).
  unfold svc_root_u_polar. change (neqb XN (Fin G) (nZ XN 0)) with (Reqb G 0). change (neqb XN (Fin m) (nZ XN 0)) with (Reqb m 0).
  rewrite (proj2 (Reqb_false G 0)), (proj2 (Reqb_false m 0)) by auto. split; [|split].
  - change [lift_pt (r, psi, 0)] with (map (fun q : R * R => (Fin (fst q), Fin (snd q), Fin 0)) [(r, psi)]). 
    change (nabs XN) with xabs. nT. rewrite (amax_zero [(r, psi)]) by discriminate. cbn [map fst snd]. rewrite svr_plane_X by lra. reflexivity.
  - rewrite plane_kline by lra. cbv zeta. unfold zero. intros E. injection E as E1 E2 _.
    pose proof (sinchi_lt m psi) as D. pose proof (Rsq_pos m).
    assert (EC : cos (atan m) <> 0). { destruct (skew_dir_val m) as [_ ->]. apply Rgt_not_eq, Rdiv_lt_0_compat; [lra|apply sqrt_lt_R0; lra]. }
    set (K := G / (4 * PI * r) * (1 / (1 - cos psi * sin (atan m)) * cos (atan m))) in *.
    assert (HK : K <> 0).
    { unfold K, Rdiv. assert (0 < 4 * PI * r) by (apply Rmult_lt_0_compat; lra).
      repeat apply Rmult_integral_contrapositive_currified; auto; try lra; apply Rinv_neq_0_compat; lra. }
    pose proof (sin2_cos2 psi) as SC. unfold Rsqr in SC.
    assert (sin psi = 0) by (destruct (Rmult_integral _ _ E1); [lra|contradiction]).
    assert (cos psi = 0) by (destruct (Rmult_integral _ _ E2); [lra|contradiction]).
    rewrite H0, H1 in SC. lra.
  - assert (AM := amax_nonzero ((r, psi, 0) :: others) p' (or_intror HI) Hz). change (nabs XN) with xabs. nT. unfold lift_pt in *. rewrite AM. cbn [map fst snd].
    unfold svr_general. 
    pose proof (vl_X G (skew_dir m) (rotor_pt r psi) 0 0 (or_introl eq_refl)) as V. 
    change (vl_semiinf_u (N := XN) (nmul XN (Fin r) (ncos XN (Fin psi))) (nmul XN (Fin r) (nsin XN (Fin psi))) (Fin 0) (nsin XN (natan XN (Fin m))) (nZ XN 0) (ncos XN (natan XN (Fin m))) (Fin G) 0 (nZ XN 0))
      with (vl_semiinf_u (N := XN) (Fin (px (rotor_pt r psi))) (Fin (py (rotor_pt r psi))) (Fin (pz (rotor_pt r psi))) (Fin (px (skew_dir m))) (Fin (py (skew_dir m))) (Fin (pz (skew_dir m))) (Fin G) 0 (Fin 0)).
    etransitivity; [rewrite V; reflexivity|]. cbv zeta. rewrite rotor_len by lra. rewrite (proj2 (Rltb_true r _)), orb_true_r by lra. reflexivity.
Qed.

(** ** C76: the tangential skewed cylinder is the trapezoid rule over exact row integrals *)
Definition int31 (a b c x : R) : R := x / sqrt (qq a b c x) ^ 3.
Lemma improper31 a b c : 0 < a -> 0 < c -> b < a * c -> over_half_line (int31 a b c) (1 / (c * (a * c - b))).
Proof.
  intros Ha Hc Hb. pose proof (qpos a b c Ha Hb) as Qp. destruct (q0 a b c Ha) as [Q0 Q1]. unfold over_half_line.
  assert (CI : forall x, 0 <= x -> continuous (int31 a b c) x).
  { intros x Hx. apply (c_int a b c (fun x => x) 3); auto. auto_derive; auto. }
  destruct (Req_dec (b * b - a * a * (c * c)) 0) as [HD|HD].
  - assert (Eb : b = - (1) * a * c).
    { assert (F : (b - a * c) * (b + a * c) = 0) by (rewrite <- HD; ring). destruct (Rmult_integral _ _ F); lra. }
    assert (Hs : - (1) * - (1) = 1) by ring. pose proof (Rmult_lt_0_compat a c Ha Hc) as Hac.
    assert (W : forall x, 0 <= x -> 0 < a - - (1) * c * x) by (intros x Hx; pose proof (Rmult_le_pos c x ltac:(lra) Hx); lra).
    rewrite Eb in *. clear Eb.
    pose (F := fun x => - (a + 2 * c * x) / (2 * (c * c) * ((a + c * x) * (a + c * x)))).
    replace (1 / (c * (a * c - - (1) * a * c))) with (0 - F 0) by (unfold F; field; split; lra).
    apply improper_antideriv; auto.
    + intros x Hx. specialize (W x Hx). destruct (w_sqrt a c (- (1)) Hs x W) as [E1 E2]. unfold int31. rewrite E2.
      assert (0 < a + c * x) by lra. unfold F. auto_derive.
      * apply Rgt_not_eq. repeat apply Rmult_lt_0_compat; lra.
      * field. split; lra.
    + pose (g := fun y => - (a * (y * y) + 2 * c * y) / (2 * (c * c) * ((a * y + c) * (a * y + c)))).
      cut (is_lim F p_infty (g 0)); [replace (g 0) with 0 by (unfold g; field; lra); auto|].
      apply (lim_via_inv _ g); unfold F, g.
      * intros x Hx. specialize (W x ltac:(lra)). field. repeat split; lra.
      * apply (ex_derive_continuous (fun y => - (a * (y * y) + 2 * c * y) / (2 * (c * c) * ((a * y + c) * (a * y + c))))).
        auto_derive. rewrite Rmult_0_r, Rplus_0_l. apply Rgt_not_eq; repeat apply Rmult_lt_0_compat; lra.
  - assert (F : b * b - a * a * (c * c) = (b - a * c) * (b + a * c)) by ring.
    assert (Hbp : b + a * c <> 0) by (intros E; rewrite E, Rmult_0_r in F; lra).
    pose (P := fun x => (a * a + - b * x) / ((b * b - a * a * (c * c)) * sqrt (qq a b c x))).
    replace (1 / (c * (a * c - b))) with (- b / ((b * b - a * a * (c * c)) * c) - P 0).
    + apply improper_antideriv; auto.
      * intros x Hx. assert (S : 0 < sqrt (qq a b c x)) by (apply sqrt_lt_R0; auto).
        assert (D := der_w1 a b c (fun x => a * a + - b * x) (b * b - a * a * (c * c)) x (- b) HD (Qp x Hx) ltac:(auto_derive; [auto|ring])).
        unfold int31. replace (x / sqrt (qq a b c x) ^ 3) with ((- b * qq a b c x - 1 / 2 * (a * a + - b * x) * (2 * c ^ 2 * x - 2 * b)) / (b * b - a * a * (c * c)) / sqrt (qq a b c x) ^ 3); [exact D|].
        replace (- b * qq a b c x - 1 / 2 * (a * a + - b * x) * (2 * c ^ 2 * x - 2 * b)) with (x * (b * b - a * a * (c * c))) by (unfold qq; field). field. split; lra.
      * apply lim3; auto.
    + unfold P. rewrite Q1, F. field. repeat split; lra.
Qed.
Lemma tri {A B C : Type} (a a' : A) (b b' : B) (c c' : C) : a = a' -> b = b' -> c = c' -> (a, b, c) = (a', b', c').
Proof. intros -> -> ->. reflexivity. Qed.
Lemma comb2_gen f0 f1 v0 v1 k0 k1 (F : R -> R) :
  over_half_line f0 v0 -> over_half_line f1 v1 -> (forall s, 0 <= s -> F s = k0 * f0 s + k1 * f1 s) ->
  over_half_line F (k0 * v0 + k1 * v1).
Proof.
  intros H0 H1 E.
  replace (k0 * v0 + k1 * v1) with (1 * (k0 * v0 + k1 * v1 - 0 * v0 - 0 * v0)) by ring.
  apply (comb_gen f0 f0 f0 f1 v0 v0 v0 v1 1 0 k0 0 k1 F); auto. intros s Hs. rewrite E by auto. ring.
Qed.
(** the closed form of one row *)
Definition row_u (g Rr m th : R) (x : R3) : R3 :=
  let w := sub3 x (Rr * cos th, Rr * sin th, 0) in
  let a := length3 w in let b := m * px w + pz w in let c := sqrt (m * m + 1) in
  let i0 := 1 / (a * (a * c - b)) in let i1 := 1 / (c * (a * c - b)) in
  let k := g * c * Rr / (4 * PI) in
  (k * (pz x * cos th) * i0 + - k * cos th * i1,
   k * (pz x * sin th) * i0 + - k * sin th * i1,
   k * (Rr - px x * cos th - py x * sin th) * i0 + k * (m * cos th) * i1).
Lemma row_velocity g Rr m th x : 
  (forall s, 0 <= s -> x <> (Rr * cos th + m * s, Rr * sin th, s)) -> ring_row_velocity g Rr m th x (row_u g Rr m th x).
Proof.
  intros Hx. destruct x as [[x1 x2] x3]. unfold row_u.
  set (w := sub3 (x1, x2, x3) (Rr * cos th, Rr * sin th, 0)).
  assert (OFF : ~ (px w = m * pz w /\ py w = 0 /\ 0 <= pz w)).
  { unfold w, sub3, px, py, pz. cbn [fst snd]. intros (A & B & C). apply (Hx x3); [lra|]. rewrite Rminus_0_r in *. apply tri; lra. }
  assert (EW : w = (px w, py w, pz w)) by (destruct w as [[? ?] ?]; reflexivity).
  pose proof (off_line m (px w) (py w) (pz w) OFF) as [Ha Hb]. rewrite <- EW in Ha, Hb.
  destruct (c_pos m) as [Hc _]. set (a := length3 w) in *. set (b := m * px w + pz w) in *. set (c := sqrt (m * m + 1)) in *.
  assert (I0 : over_half_line (int30 a b c) (1 / (a * (a * c - b)))) by (exact (proj1 (improper_all a b c Ha Hc Hb))).
  assert (I1 := improper31 a b c Ha Hc Hb).
  assert (EQ : forall s, length3 (sub3 (x1, x2, x3) (Rr * cos th + m * s, Rr * sin th, s)) = sqrt (qq a b c s)).
  { intros s. unfold a, b, c. pose proof (q_line m (px w) (py w) (pz w) s) as Q. rewrite <- EW in Q. rewrite Q. unfold length3. f_equal.
    unfold w, inner, sub3, px, py, pz. cbn [fst snd]. ring. }
  assert (EC : sqrt (1 + m ^ 2) = c) by (unfold c; f_equal; ring).
  unfold ring_row_velocity. rewrite EC. pose proof PI_RGT_0. pose proof (sin2_cos2 th) as SC. unfold Rsqr in SC.
  assert (SP : forall s, 0 <= s -> 0 < sqrt (qq a b c s)) by (intros s Hs; apply sqrt_lt_R0, qpos; auto).
  split; [|split]; cbn [px py pz fst snd]; apply (comb2_gen (int30 a b c) (int31 a b c) _ _ _ _ _ I0 I1); intros s Hs; specialize (SP s Hs);
    unfold bs_kernel; rewrite EQ; unfold scal3, vprod, sub3, int30, int31, px, py, pz; cbn [fst snd].
  - field. split; lra.
  - field. split; lra.
  - replace (- sin th * (x2 - Rr * sin th) - cos th * (x1 - (Rr * cos th + m * s))) with (Rr * (sin th * sin th + cos th * cos th) - x1 * cos th - x2 * sin th + m * cos th * s) by ring.
    rewrite SC. field. split; lra.
Qed.
Lemma row_closed g Rr m th r psi z : 
  let A := Rr * Rr + r * r + z * z - 2 * Rr * r * cos (th - psi) in let x := (r * cos psi, r * sin psi, z) in
  (forall s, 0 <= s -> x <> (Rr * cos th + m * s, Rr * sin th, s)) ->
  let den := 2 * sqrt (A * (1 + m * m)) + (2 * m * Rr * cos th - 2 * m * r * cos psi - 2 * z) in
  let D := 2 * g / (4 * PI) / (sqrt A * den) in
  0 < A /\ den <> 0 /\
  row_u g Rr m th x =
   ((Rr * z * cos th * sqrt (1 + m * m) + - Rr * cos th * sqrt A) * D,
    (Rr * z * sin th * sqrt (1 + m * m) + - Rr * sin th * sqrt A) * D,
    (Rr * (Rr - r * cos (th - psi)) * sqrt (1 + m * m) + Rr * m * cos th * sqrt A) * D).
Proof.
  intros A x Hx. cbv zeta. unfold row_u.
  set (w := sub3 x (Rr * cos th, Rr * sin th, 0)).
  assert (OFF : ~ (px w = m * pz w /\ py w = 0 /\ 0 <= pz w)).
  { unfold w, x, sub3, px, py, pz. cbn [fst snd]. intros (E1 & B & C). apply (Hx z); [lra|]. unfold x. rewrite Rminus_0_r in *. apply tri; lra. }
  assert (EW : w = (px w, py w, pz w)) by (destruct w as [[? ?] ?]; reflexivity).
  pose proof (off_line m (px w) (py w) (pz w) OFF) as [Ha Hb]. rewrite <- EW in Ha, Hb.
  destruct (c_pos m) as [Hc C2]. set (a := length3 w) in *. set (b := m * px w + pz w) in *. 
  assert (EC : sqrt (1 + m * m) = sqrt (m * m + 1)) by (f_equal; ring). rewrite EC. set (c := sqrt (m * m + 1)) in *.
  assert (EA : A = a * a).
  { unfold a. rewrite length3_sq. unfold w, x, A, inner, sub3, px, py, pz. cbn [fst snd]. rewrite cos_minus.
    pose proof (sin2_cos2 th) as S1. pose proof (sin2_cos2 psi) as S2. unfold Rsqr in *.
    transitivity (Rr * Rr * (sin th * sin th + cos th * cos th) + r * r * (sin psi * sin psi + cos psi * cos psi) + z * z - 2 * Rr * r * (cos th * cos psi + sin th * sin psi)); [rewrite S1, S2; ring|ring]. }
  assert (SA : sqrt A = a) by (rewrite EA; apply sqrt_square; lra).
  assert (SAC : sqrt (A * (1 + m * m)) = a * c).
  { rewrite EA. replace (1 + m * m) with (c * c) by lra. replace (a * a * (c * c)) with (a * c * (a * c)) by ring. apply sqrt_square. apply Rmult_le_pos; lra. }
  assert (EB : 2 * m * Rr * cos th - 2 * m * r * cos psi - 2 * z = - 2 * b).
  { unfold b, w, x, sub3, px, pz. cbn [fst snd]. ring. }
  rewrite SAC, EB, SA. pose proof PI_RGT_0.
  split; [rewrite EA; apply Rmult_lt_0_compat; auto|]. split; [lra|].
  unfold x, px, py, pz. cbn [fst snd]. rewrite cos_minus. apply tri; field; repeat split; lra.
Qed.
(** the point is on no generator of the cylinder *)
Definition off_sheet (Rr m : R) (x : R3) : Prop := forall th s, 0 <= s -> x <> (Rr * cos th + m * s, Rr * sin th, s).
Theorem C76_tangential_is_trapezoid_of_biot_savart_rows :
  forall g Rr m r psi z n, (2 <= n)%nat -> let x := (r * cos psi, r * sin psi, z) in off_sheet Rr m x ->
  exists F : R -> R3, (forall th, ring_row_velocity g Rr m th x (F th)) /\
    svc_tang_u_polar (N := XN) (Fin g) (Fin Rr) (Fin m) n false (Fin r, Fin psi, Fin z) =
      xv (trapezoid (fun th => px (F th)) (PI/2) (2 * PI) n, trapezoid (fun th => py (F th)) (PI/2) (2 * PI) n, trapezoid (fun th => pz (F th)) (PI/2) (2 * PI) n) /\
    svc_tang_u_polar (N := XN) (Fin g) (Fin Rr) (Fin m) n true (Fin r, Fin psi, Fin z) =
      xv (trapezoid (fun th => px (F th) * cos psi + py (F th) * sin psi) (PI/2) (2 * PI) n, trapezoid (fun th => - px (F th) * sin psi + py (F th) * cos psi) (PI/2) (2 * PI) n,
          trapezoid (fun th => pz (F th)) (PI/2) (2 * PI) n).
Proof.
  intros g Rr m r psi z n Hn x OFF. exists (fun th => row_u g Rr m th x). split; [intros th; apply row_velocity; intros s Hs; apply OFF; auto|].
  assert (K : forall (ai bi : X -> X) (a b G : R -> R), (forall t, ai (Fin t) = Fin (a t)) -> (forall t, bi (Fin t) = Fin (b t)) ->
     (forall th, G th = (a th * sqrt (1 + m * m) + b th * sqrt (Rr * Rr + r * r + z * z - 2 * Rr * r * cos (th - psi))) *
        (2 * g / (4 * PI) / (sqrt (Rr * Rr + r * r + z * z - 2 * Rr * r * cos (th - psi)) * (2 * sqrt ((Rr * Rr + r * r + z * z - 2 * Rr * r * cos (th - psi)) * (1 + m * m)) + (2 * m * Rr * cos th - 2 * m * r * cos psi - 2 * z))))) ->
     svc_trap (N := XN) n (svc_int (N := XN) (Fin g) (Fin Rr) (Fin m) (Fin r) (Fin psi) (Fin z) ai bi) = Fin (trapezoid G (PI/2) (2 * PI) n)).
  { intros ai bi a b G Ea Eb EG. apply svc_trap_X; auto. intros th. 
    destruct (row_closed g Rr m th r psi z ltac:(intros s Hs; apply OFF; auto)) as (P1 & P2 & _).
    rewrite (svc_int_X g Rr m r psi z ai bi a b th); auto. cbv zeta. rewrite EG. reflexivity. }
  assert (RC : forall th, _) by (intros th; exact (proj2 (proj2 (row_closed g Rr m th r psi z ltac:(intros s Hs; apply OFF; auto))))).
  fold x in RC. unfold svc_tang_u_polar. split.
  - rewrite (K _ _ (fun th => Rr * z * cos th) (fun th => - Rr * cos th) (fun th => px (row_u g Rr m th x))) by (intros; try (xn; reflexivity); rewrite RC; reflexivity).
    rewrite (K _ _ (fun th => Rr * z * sin th) (fun th => - Rr * sin th) (fun th => py (row_u g Rr m th x))) by (intros; try (xn; reflexivity); rewrite RC; reflexivity).
    rewrite (K _ _ (fun th => Rr * (Rr - r * cos (th - psi))) (fun th => Rr * m * cos th) (fun th => pz (row_u g Rr m th x))) by (intros; try (xn; reflexivity); rewrite RC; reflexivity).
    reflexivity.
  - rewrite (K _ _ (fun th => Rr * z * cos (th - psi)) (fun th => - Rr * cos (th - psi)) (fun th => px (row_u g Rr m th x) * cos psi + py (row_u g Rr m th x) * sin psi))
      by (intros; try (xn; reflexivity); rewrite RC; unfold px, py; cbn [fst snd]; rewrite (cos_minus th psi) at 7 8; unfold Rdiv; ring).
    rewrite (K _ _ (fun th => Rr * z * sin (th - psi)) (fun th => - Rr * sin (th - psi)) (fun th => - px (row_u g Rr m th x) * sin psi + py (row_u g Rr m th x) * cos psi))
      by (intros; try (xn; reflexivity); rewrite RC; unfold px, py; cbn [fst snd]; rewrite (sin_minus th psi); unfold Rdiv; ring).
    rewrite (K _ _ (fun th => Rr * (Rr - r * cos (th - psi))) (fun th => Rr * m * cos th) (fun th => pz (row_u g Rr m th x))) by (intros; try (xn; reflexivity); rewrite RC; reflexivity).
    reflexivity.
Qed.
Example C76_case : off_sheet 1 1 (1 / 2 * cos 0, 1 / 2 * sin 0, 0).
Proof.
  intros th s Hs E. rewrite cos_0, sin_0 in E. injection E as E1 E2 E3. subst s. pose proof (sin2_cos2 th) as SC. unfold Rsqr in SC.
  assert (cos th = 1 / 2) by lra. assert (sin th = 0) by lra. rewrite H, H0 in SC. lra.
Qed.

(** ** C77: the longitudinal sheet is a trapezoidal sum of skewed half lines *)
Lemma half_line_shift G p0 e x u : half_line_velocity G zero e (sub3 x p0) u -> half_line_velocity G p0 e x u.
Proof.
  intros (H1 & H2 & H3).
  assert (E : forall s, bs_kernel x (add3 p0 (scal3 s e)) e = bs_kernel (sub3 x p0) (add3 zero (scal3 s e)) e).
  { intros s. unfold bs_kernel.
    assert (A : sub3 x (add3 p0 (scal3 s e)) = sub3 (sub3 x p0) (add3 zero (scal3 s e))).
    { destruct x as [[? ?] ?], p0 as [[? ?] ?], e as [[? ?] ?]. unfold sub3, add3, scal3, zero, px, py, pz. cbn [fst snd]. apply tri; ring. }
    rewrite A. reflexivity. }
  split; [|split]; cbv beta.
  - apply (is_RInt_gen_ext (fun s => G * px (bs_kernel (sub3 x p0) (add3 zero (scal3 s e)) e))); auto.
    apply filter_forall. intros ab s _. rewrite E. reflexivity.
  - apply (is_RInt_gen_ext (fun s => G * py (bs_kernel (sub3 x p0) (add3 zero (scal3 s e)) e))); auto.
    apply filter_forall. intros ab s _. rewrite E. reflexivity.
  - apply (is_RInt_gen_ext (fun s => G * pz (bs_kernel (sub3 x p0) (add3 zero (scal3 s e)) e))); auto.
    apply filter_forall. intros ab s _. rewrite E. reflexivity.
Qed.
Lemma svl_trap_X n (f : X -> X) (g : R -> R) : (2 <= n)%nat -> (forall t, f (Fin t) = Fin (g t)) ->
  (let vt := svl_vtheta (N := XN) n in trapz (N := XN) (map f vt) vt) = Fin (trapezoid g (PI / INR n) (2 * PI) n).
Proof.
  intros Hn H. unfold svl_vtheta.
  change (nmul XN (nZ XN 2) (npi XN)) with (Fin (2 * PI)). change (nZ XN 0) with (Fin 0). rewrite linspace_X.
  assert (E : map (fun t : X => nadd XN t (ndiv XN (npi XN) (nZ XN (Z.of_nat n)))) (map Fin (linspace (N := RN) 0 (2 * PI) n)) = map Fin (map (fun t => PI / INR n + t) (linspace (N := RN) 0 (2 * PI) n))).
  { rewrite !map_map. apply map_ext. intros t. rewrite INR_IZR_INZ. assert (IZR (Z.of_nat n) <> 0) by (rewrite <- INR_IZR_INZ; apply not_0_INR; lia).
    xn. rewrite xdiv_fin by auto. xn. f_equal. ring. }
  nT. rewrite E. cbv zeta. rewrite (map_map Fin f). rewrite (map_ext (fun x => f (Fin x)) (fun x => Fin (g x)) H).
  rewrite <- (map_map g Fin). rewrite trapz_X. rewrite trapezoid_trapz by auto. reflexivity.
Qed.
Lemma sheet_line Rr m x th : off_sheet Rr m x -> 
  let a := sub3 x (Rr * cos th, Rr * sin th, 0) in 0 < length3 a * (length3 a - inner a (skew_dir m)).
Proof.
  intros OFF a. apply Rnot_le_lt. intros H. apply (on_half_line _ _ (skew_dir_unit m)) in H. destruct H as (s & Hs & E).
  destruct (skew_dir_val m) as [ES EC]. pose proof (Rsq_pos m). assert (W : 0 < sqrt (1 + m * m)) by (apply sqrt_lt_R0; lra).
  apply (OFF th (s / sqrt (1 + m * m))); [apply Rmult_le_pos; [auto|left; apply Rinv_0_lt_compat; auto]|].
  destruct x as [[x1 x2] x3]. unfold a, skew_dir, sub3, scal3, px, py, pz in E. cbn [fst snd] in E. rewrite ES, EC in E. injection E as E1 E2 E3.
  apply tri; [|lra|].
  - replace x1 with (x1 - Rr * cos th + Rr * cos th) by ring. rewrite E1. field. lra.
  - rewrite Rminus_0_r in E3. rewrite E3. field. lra.
Qed.
Lemma kline_sheet g Rr m th r psi z : 0 < Rr -> off_sheet Rr m (r * cos psi, r * sin psi, z) ->
  let r' := r / Rr in let z' := z / Rr in
  let A := 1 + r' * r' + z' * z' - 2 * r' * cos (th - psi) in
  let den := - z' + m * cos th + sqrt (1 + m * m) * sqrt A - m * r' * cos psi in
  0 < sqrt A /\ 0 < den /\
  klineR (g * Rr) (skew_dir m) (sub3 (r * cos psi, r * sin psi, z) (Rr * cos th, Rr * sin th, 0)) =
  scal3 (g / (4 * PI) / (sqrt A * den)) (sin th - r' * sin psi, - m * z' - cos th + r' * cos psi, m * (- sin th + r' * sin psi)).
Proof.
  intros HR OFF r' z' A den. pose proof (sheet_line _ _ _ th OFF) as D. cbv zeta in D. pose proof PI_RGT_0 as HP.
  set (a := sub3 _ _) in *. destruct (skew_dir_val m) as [ES EC]. pose proof (Rsq_pos m). assert (W : 0 < sqrt (1 + m * m)) by (apply sqrt_lt_R0; lra).
  assert (EA : inner a a = Rr * Rr * A).
  { unfold a, A, r', z', inner, sub3, px, py, pz. cbn [fst snd]. rewrite cos_minus.
    pose proof (sin2_cos2 th) as S1. pose proof (sin2_cos2 psi) as S2. unfold Rsqr in *.
    transitivity (Rr * Rr * (sin th * sin th + cos th * cos th) + r * r * (sin psi * sin psi + cos psi * cos psi) + z * z - 2 * Rr * r * (cos th * cos psi + sin th * sin psi)); [ring|rewrite S1, S2; field; lra]. }
  assert (EL : length3 a = Rr * sqrt A).
  { unfold length3. rewrite EA. rewrite sqrt_mult_alt by (apply Rmult_le_pos; lra). rewrite sqrt_square by lra. reflexivity. }
  assert (L0 := length3_pos a). 
  assert (SA : 0 < sqrt A). { destruct (sqrt_pos A) as [P|P]; auto. exfalso. rewrite EL, <- P in D. lra. }
  assert (EI : (length3 a - inner a (skew_dir m)) * sqrt (1 + m * m) = Rr * den).
  { unfold den. rewrite EL. unfold inner, skew_dir, a, sub3, px, py, pz, r', z'. cbn [fst snd]. rewrite ES, EC. field. lra. }
  assert (HD : 0 < den).
  { apply Rmult_lt_reg_l with Rr; auto. rewrite Rmult_0_r, <- EI. apply Rmult_lt_0_compat; auto.
    apply Rmult_lt_reg_l with (length3 a); [rewrite EL; apply Rmult_lt_0_compat; auto|]. rewrite Rmult_0_r. auto. }
  split; [auto|]. split; [auto|]. unfold klineR.
  assert (EI' : length3 a - inner a (skew_dir m) = Rr * den / sqrt (1 + m * m)) by (rewrite <- EI; field; lra).
  rewrite EI', EL. unfold scal3, vprod, skew_dir, a, sub3, px, py, pz, r', z'. cbn [fst snd]. rewrite ES, EC.
  clear EI EI' EL EA D L0. clearbody den a. revert SA. generalize (sqrt A). intros sA SA. clear A. unfold r', z'. apply tri; field; repeat split; lra.
Qed.
Theorem C77_longitudinal_is_trapezoid_of_biot_savart_lines :
  forall g Rr m r psi z n, 0 < Rr -> (2 <= n)%nat -> let x := (r * cos psi, r * sin psi, z) in off_sheet Rr m x ->
  exists F : R -> R3,
    (forall th, half_line_velocity (g * Rr) (Rr * cos th, Rr * sin th, 0) (sin (atan m), 0, cos (atan m)) x (F th)) /\
    let T c := trapezoid (fun th => c (F th)) (PI / INR n) (2 * PI) n in
    svc_longi_u_polar (N := XN) (Fin g) (Fin Rr) (Fin m) n false (Fin r, Fin psi, Fin z) = xv (T px, T py, T pz) /\
    (* polar output: azimuthal and axial components are right, but the radial one is the azimuthal one again *)
    svc_longi_u_polar (N := XN) (Fin g) (Fin Rr) (Fin m) n true (Fin r, Fin psi, Fin z) =
      xv (- T px * sin psi + T py * cos psi, - T px * sin psi + T py * cos psi, T pz).
Proof.
  intros g Rr m r psi z n HR Hn x OFF. pose proof PI_RGT_0 as HP.
  exists (fun th => klineR (g * Rr) (skew_dir m) (sub3 x (Rr * cos th, Rr * sin th, 0))). split.
  { intros th. apply half_line_shift. apply half_line; [apply skew_dir_unit|]. apply sheet_line. auto. }
  pose proof (Rsq_pos m).
  set (r' := r / Rr). set (z' := z / Rr).
  assert (K : forall (fx : X -> X) (f G : R -> R), (forall t, fx (Fin t) = Fin (f t)) ->
     (forall th, G th = f th * (g / (4 * PI) / (sqrt (1 + r' * r' + z' * z' - 2 * r' * cos (th - psi)) * (- z' + m * cos th + sqrt (1 + m * m) * sqrt (1 + r' * r' + z' * z' - 2 * r' * cos (th - psi)) - m * r' * cos psi)))) ->
     (let vt := svl_vtheta (N := XN) n in trapz (N := XN) (map (fun th => nmul XN (fx th) (svl_den (N := XN) (Fin g) (Fin m) (Fin r') (Fin psi) (Fin z') th)) vt) vt) = Fin (trapezoid G (PI / INR n) (2 * PI) n)).
  { intros fx f G Ef EG. apply svl_trap_X; auto. intros th. destruct (kline_sheet g Rr m th r psi z HR OFF) as (P1 & P2 & _). cbv zeta in P1, P2. fold r' z' in P1, P2.
    rewrite EG, Ef. unfold svl_den. xn.
    assert (A0 : 0 <= 1 + r' * r' + z' * z' - 2 * r' * cos (th - psi)).
    { destruct (Rle_lt_dec 0 (1 + r' * r' + z' * z' - 2 * r' * cos (th - psi))) as [A|A]; auto. exfalso. rewrite sqrt_neg_0 in P1; lra. }
    rewrite !xsqrt_fin by lra. xn. rewrite (xdiv_fin g (4 * PI)) by lra. rewrite xdiv_fin by (apply Rgt_not_eq, Rmult_lt_0_compat; auto). reflexivity. }
  assert (RC : forall th, _) by (intros th; exact (proj2 (proj2 (kline_sheet g Rr m th r psi z HR OFF)))). fold x in RC. cbv zeta in RC. fold r' z' in RC.
  assert (ER : ndiv XN (Fin r) (Fin Rr) = Fin r') by (xn; rewrite xdiv_fin by lra; reflexivity).
  assert (EZ : ndiv XN (Fin z) (Fin Rr) = Fin z') by (xn; rewrite xdiv_fin by lra; reflexivity).
  pose proof (sin2_cos2 psi) as SC. unfold Rsqr in SC.
  set (F := fun th => klineR (g * Rr) (skew_dir m) (sub3 x (Rr * cos th, Rr * sin th, 0))).
  assert (KX := K (fun th : X => nsub XN (nsin XN th) (nmul XN (Fin r') (nsin XN (Fin psi)))) (fun th => sin th - r' * sin psi) (fun th => px (F th)) (fun t => eq_refl)).
  specialize (KX ltac:(intros th; unfold F; rewrite (RC th); unfold scal3, px, py, pz; cbn [fst snd]; apply Rmult_comm)).
  assert (KY := K (fun th : X => nadd XN (nsub XN (nmul XN (nopp XN (Fin m)) (Fin z')) (ncos XN th)) (nmul XN (Fin r') (ncos XN (Fin psi)))) (fun th => - m * z' - cos th + r' * cos psi) (fun th => py (F th)) (fun t => eq_refl)).
  specialize (KY ltac:(intros th; unfold F; rewrite (RC th); unfold scal3, px, py, pz; cbn [fst snd]; apply Rmult_comm)).
  assert (KZ := K (fun th : X => nmul XN (Fin m) (nadd XN (nopp XN (nsin XN th)) (nmul XN (Fin r') (nsin XN (Fin psi))))) (fun th => m * (- sin th + r' * sin psi)) (fun th => pz (F th)) (fun t => eq_refl)).
  specialize (KZ ltac:(intros th; unfold F; rewrite (RC th); unfold scal3, px, py, pz; cbn [fst snd]; apply Rmult_comm)).
  assert (KP := K (fun th : X => nsub XN (nsub XN (Fin r') (nmul XN (nmul XN (Fin m) (Fin z')) (ncos XN (Fin psi)))) (ncos XN (nsub XN th (Fin psi)))) (fun th => r' - m * z' * cos psi - cos (th - psi))
     (fun th => (- sin psi) * px (F th) + cos psi * py (F th)) (fun t => eq_refl)).
  specialize (KP ltac:(intros th; unfold F; rewrite (RC th); unfold scal3, px, py, pz; cbn [fst snd];
       replace (r' - m * z' * cos psi - cos (th - psi)) with (r' * (sin psi * sin psi + cos psi * cos psi) - m * z' * cos psi - (cos th * cos psi + sin th * sin psi)) by (rewrite SC, cos_minus; ring);
       ring)).
  rewrite (trapezoid_lin (fun th => - sin psi * px (F th)) (fun th => py (F th))), (trapezoid_scal (fun th => px (F th))) in KP.
  cbv zeta in *. unfold svc_longi_u_polar. rewrite ER, EZ. cbv zeta. fold (F : R -> R3). split.
  - unfold xv, px, py, pz. cbn [fst snd]. apply tri; [exact KX|exact KY|exact KZ].
  - unfold xv, px, py, pz. cbn [fst snd]. 
    apply tri; [etransitivity; [exact KP|]; f_equal; unfold F, px, py; ring|etransitivity; [exact KP|]; f_equal; unfold F, px, py; ring|exact KZ].
Qed.
