(** * Longitudinal vorticity of the straight cylinder: C59, C78 *)
From Coquelicot Require Import Coquelicot.
From Coq Require Import ZArith List Bool Arith Lia String Reals Lra Psatz.
From Verif Require Import Num NumR NumX M_Elliptic M_Line M_Cylinder M_Ring M_Doublet M_Skewed L_List L_X L_Angles L_Built Spec SpecBS L_Calc L_Ell L_Cyl L_Carlson P_Line P_Ring P_Doublet P_Skewed P_Cylinder P_Cylinder2 P_Cylinder3.
Import ListNotations.
Local Open Scope R_scope.

(** ** The exact azimuthal velocity in closed form *)
Definition ClP (g Rr r z P : R) : R :=
  g / 2 * Rr / r * ((if Rlt_dec r Rr then 0 else 1) + z / (PI * sqrt (a2 r Rr z)) * (Kell (mm r Rr z) - (Rr - r) / (Rr + r) * P)).
Definition Cl (g Rr r z : R) : R := ClP g Rr r z (Piell (nn r Rr) (mm r Rr z)).

Section Longi.
  Variables g Rr r z : R.
  Hypothesis hr : 0 < r.
  Hypothesis hR : 0 < Rr.
  Hypothesis NE : r <> Rr.
  Let k := g * Rr / (4 * PI).
  Let w t := sqrt (dd r Rr z t).
  Lemma lg_off : 0 < (r - Rr) * (r - Rr) + z * z.
  Proof. pose proof (Rsq_lt (r - Rr) ltac:(lra)). pose proof (Rsq_pos z). lra. Qed.
  Lemma lg_fact t : 0 < dd r Rr z t /\ 0 < w t /\ 0 < w t - z /\ w t * w t = dd r Rr z t.
  Proof.
    destruct (straight_row g Rr r 0 z t ltac:(lra) hR (or_introl NE)) as (P1 & P2 & _). cbv zeta in *. rewrite Rminus_0_r in *.
    unfold w. repeat split; auto; [apply sqrt_lt_R0; auto|apply sqrt_sqrt; lra].
  Qed.
  Lemma azim_int : is_RInt (fun t => k * ((r - Rr * cos t) / (w t * (w t - z)))) 0 (2 * PI) (Cl g Rr r z).
  Proof.
    pose proof PI_RGT_0 as HP. pose proof lg_off as off. assert (hr0 : 0 <= r) by lra.
    pose proof (int1 r Rr z off hr0 hR) as I1. pose proof (a2_pos r Rr z off hr0 hR) as A. assert (SA : 0 < sqrt (a2 r Rr z)) by (apply sqrt_lt_R0; auto).
    assert (I0 : is_RInt (fun _ : R => 1) 0 (2 * PI) (2 * PI)).
    { replace (is_RInt (fun _ : R => 1) 0 (2 * PI) (2 * PI)) with (is_RInt (fun _ : R => 1) 0 (2 * PI) (scal (2 * PI - 0) 1)); [apply (@is_RInt_const R_NormedModule)|].
      f_equal. rsc. ring. }
    pose proof (int0 r Rr hr0 hR NE) as J0. pose proof (int3 r Rr z hr0 hR NE) as J3.
    assert (K := is_RInt_scal _ _ _ (g * Rr / (8 * PI * r)) _ (is_RInt_plus _ _ _ _ _ _ (is_RInt_plus _ _ _ _ _ _ I0 (is_RInt_scal _ _ _ z _ I1))
        (is_RInt_scal _ _ _ (r * r - Rr * Rr) _ (is_RInt_plus _ _ _ _ _ _ J0 (is_RInt_scal _ _ _ z _ J3))))).
    match goal with |- is_RInt ?f ?a ?b ?v => replace v with (g * Rr / (8 * PI * r) * ((2 * PI + z * II1 r Rr z) + (r * r - Rr * Rr) * (2 * PI / (Rabs (r - Rr) * (r + Rr)) + z * II3 r Rr z))) end.
    2: { unfold II1, II3, Cl, ClP. destruct (Rlt_dec r Rr) as [L|L].
         - rewrite Rabs_left by lra. field. repeat split; lra.
         - rewrite Rabs_right by lra. field. repeat split; lra. }
    eapply is_RInt_ext; [|exact K]. intros t _. destruct (lg_fact t) as (D1 & D2 & D3 & D4).
    change (g * Rr / (8 * PI * r) * ((1 + z * / w t) + (r * r - Rr * Rr) * (/ da r Rr t + z * / (da r Rr t * w t))) = k * ((r - Rr * cos t) / (w t * (w t - z)))).
    assert (DA : 0 < da r Rr t) by (apply dd_pos; auto; pose proof (Rsq_lt (r - Rr) ltac:(lra)); lra).
    assert (EA : da r Rr t = (w t - z) * (w t + z)).
    { replace ((w t - z) * (w t + z)) with (w t * w t - z * z) by ring. rewrite D4. unfold da, dd. ring. }
    assert (EQ : r * (r - Rr * cos t) = (da r Rr t + r * r - Rr * Rr) / 2) by (unfold da, dd; field).
    set (v := w t) in *. assert (WZ : v + z <> 0). { intros Z. rewrite Z, Rmult_0_r in EA. lra. }
    transitivity (g * Rr / (4 * PI * r) * (r * (r - Rr * cos t)) / (v * (v - z))); [rewrite EQ, EA; field; repeat split; lra|unfold k; field; repeat split; lra].
  Qed.
  Lemma lg_cont (f : R -> R) : (forall x, continuous f x) -> forall x, continuous (fun t => k * (f t / (w t * (w t - z)))) x.
  Proof.
    intros Hf x. destruct (lg_fact x) as (D1 & D2 & D3 & D4).
    apply (continuous_ext (fun t => scal (f t) (k / (w t * (w t - z))))).
    { intros t. destruct (lg_fact t) as (E1 & E2 & E3 & E4). rsc. field. repeat split; lra. }
    apply (continuous_scal f (fun t => k / (w t * (w t - z)))); auto.
    apply (ex_derive_continuous (fun t => k / (w t * (w t - z)))). unfold w, dd in *. auto_derive.
    change (r * r + Rr * Rr + z * z + - (2 * r * Rr * cos x)) with (r * r + Rr * Rr + z * z - 2 * r * Rr * cos x). 
    repeat split; try lra. apply Rgt_not_eq, Rmult_lt_0_compat; lra.
  Qed.
  Lemma sin_int : is_RInt (fun t => k * (Rr * sin t / (w t * (w t - z)))) 0 (2 * PI) 0.
  Proof.
    pose proof (Rmult_lt_0_compat r Rr hr hR) as P.
    assert (B : is_RInt (fun t => k * (Rr * sin t / (w t * (w t - z)))) 0 (2 * PI) (k / r * ln (w (2 * PI) - z) - k / r * ln (w 0 - z))).
    { apply (is_RInt_derive (fun t => k / r * ln (w t - z))).
      - intros t _. destruct (lg_fact t) as (D1 & D2 & D3 & D4). unfold w, dd in *.
        auto_derive; change (r * r + Rr * Rr + z * z + - (2 * r * Rr * cos t)) with (r * r + Rr * Rr + z * z - 2 * r * Rr * cos t).
        + repeat split; lra.
        + field. repeat split; lra.
      - intros t _. apply (lg_cont (fun t => Rr * sin t)). intros x. apply (ex_derive_continuous (fun t => Rr * sin t)). auto_derive. auto. }
    replace (w (2 * PI)) with (w 0) in B by (unfold w, dd; rewrite cos_2PI, cos_0; reflexivity).
    rewrite Rminus_eq_0 in B. exact B.
  Qed.
  Theorem longi_sheet psi : longi_sheet_velocity g Rr (r * cos psi, r * sin psi, z) (- Cl g Rr r z * sin psi, Cl g Rr r z * cos psi, 0).
  Proof.
    pose proof PI_RGT_0 as HP. pose proof lg_off as off. assert (hr0 : 0 <= r) by lra.
    set (x := (r * cos psi, r * sin psi, z)).
    assert (V : forall th, let a := sub3 x (Rr * cos th, Rr * sin th, 0) in
        length3 a = w (th - psi) /\ inner a ez = z /\ 
        klineR (g * Rr) ez a = (k * ((Rr * sin th - r * sin psi) / (w (th - psi) * (w (th - psi) - z))), k * ((r * cos psi - Rr * cos th) / (w (th - psi) * (w (th - psi) - z))), 0)).
    { intros th a. assert (EL : length3 a = w (th - psi)).
      { unfold length3, w, dd. f_equal. unfold a, x, inner, sub3, px, py, pz. cbn [fst snd]. rewrite cos_minus.
        pose proof (sin2_cos2 th) as S1. pose proof (sin2_cos2 psi) as S2. unfold Rsqr in *.
        transitivity (Rr * Rr * (sin th * sin th + cos th * cos th) + r * r * (sin psi * sin psi + cos psi * cos psi) + z * z - 2 * Rr * r * (cos th * cos psi + sin th * sin psi)); [ring|rewrite S1, S2; ring]. }
      assert (EI : inner a ez = z) by (unfold a, x, inner, sub3, ez, px, py, pz; cbn [fst snd]; ring).
      split; [auto|]. split; [auto|]. destruct (lg_fact (th - psi)) as (D1 & D2 & D3 & D4).
      unfold klineR. rewrite EL, EI. unfold a, x, scal3, vprod, sub3, ez, px, py, pz, k. cbn [fst snd]. apply tri; field; repeat split; lra. }
    exists (fun th => klineR (g * Rr) ez (sub3 x (Rr * cos th, Rr * sin th, 0))). split.
    { intros th. apply half_line_shift. destruct (V th) as (V1 & V2 & _). cbv zeta in *. apply half_line; [apply ez_unit|]. rewrite V1, V2.
      destruct (lg_fact (th - psi)) as (D1 & D2 & D3 & D4). apply Rmult_lt_0_compat; auto. }
    assert (Pd : forall y, w (y + 2 * PI) = w y) by (intros; unfold w; rewrite dd_per; reflexivity).
    assert (A1 : is_RInt (fun t => k * ((r - Rr * cos (t - psi)) / (w (t - psi) * (w (t - psi) - z)))) 0 (2 * PI) (Cl g Rr r z)).
    { apply (rot_int psi (fun t => k * ((r - Rr * cos t) / (w t * (w t - z))))); [| |apply azim_int].
      - apply (lg_cont (fun t => r - Rr * cos t)). intros y. apply (ex_derive_continuous (fun t => r - Rr * cos t)). auto_derive. auto.
      - intros y. rewrite cos_per, Pd. reflexivity. }
    assert (A2 : is_RInt (fun t => k * (Rr * sin (t - psi) / (w (t - psi) * (w (t - psi) - z)))) 0 (2 * PI) 0).
    { apply (rot_int psi (fun t => k * (Rr * sin t / (w t * (w t - z))))); [| |apply sin_int].
      - apply (lg_cont (fun t => Rr * sin t)). intros y. apply (ex_derive_continuous (fun t => Rr * sin t)). auto_derive. auto.
      - intros y. rewrite sin_per, Pd. reflexivity. }
    assert (S2 : forall t, sin t = sin psi * cos (t - psi) + cos psi * sin (t - psi)) by (intros t; rewrite <- sin_plus; f_equal; ring).
    assert (C2 : forall t, cos t = cos psi * cos (t - psi) - sin psi * sin (t - psi)) by (intros t; rewrite <- cos_plus; f_equal; ring).
    split; [|split]; unfold px, py, pz; cbn [fst snd].
    - assert (K := is_RInt_plus _ _ _ _ _ _ (is_RInt_scal _ _ _ (- sin psi) _ A1) (is_RInt_scal _ _ _ (cos psi) _ A2)).
      match goal with |- is_RInt _ _ _ ?v => replace v with (- sin psi * Cl g Rr r z + cos psi * 0) by ring end.
      eapply is_RInt_ext; [|exact K]. intros t _. destruct (V t) as (_ & _ & V3). cbv zeta in V3. rewrite V3. cbn [fst snd].
      change (- sin psi * (k * ((r - Rr * cos (t - psi)) / (w (t - psi) * (w (t - psi) - z)))) + cos psi * (k * (Rr * sin (t - psi) / (w (t - psi) * (w (t - psi) - z)))) =
              k * ((Rr * sin t - r * sin psi) / (w (t - psi) * (w (t - psi) - z)))).
      rewrite (S2 t). destruct (lg_fact (t - psi)) as (D1 & D2 & D3 & D4). field. lra.
    - assert (K := is_RInt_plus _ _ _ _ _ _ (is_RInt_scal _ _ _ (cos psi) _ A1) (is_RInt_scal _ _ _ (sin psi) _ A2)).
      match goal with |- is_RInt _ _ _ ?v => replace v with (cos psi * Cl g Rr r z + sin psi * 0) by ring end.
      eapply is_RInt_ext; [|exact K]. intros t _. destruct (V t) as (_ & _ & V3). cbv zeta in V3. rewrite V3. cbn [fst snd].
      change (cos psi * (k * ((r - Rr * cos (t - psi)) / (w (t - psi) * (w (t - psi) - z)))) + sin psi * (k * (Rr * sin (t - psi) / (w (t - psi) * (w (t - psi) - z)))) =
              k * ((r * cos psi - Rr * cos t) / (w (t - psi) * (w (t - psi) - z)))).
      rewrite (C2 t). destruct (lg_fact (t - psi)) as (D1 & D2 & D3 & D4). field_simplify_eq; [|lra]. ring.
    - apply (is_RInt_ext (fun _ : R => 0)). { intros t _. destruct (V t) as (_ & _ & V3). cbv zeta in V3. rewrite V3. reflexivity. }
      match goal with |- is_RInt ?f ?a ?b ?v => replace (is_RInt f a b v) with (is_RInt f a b (scal (2 * PI - 0) 0)); [apply (@is_RInt_const R_NormedModule)|f_equal; rsc; ring] end.
  Qed.
End Longi.

(** ** What the code computes.  [third1]: as [third], but the array may also contain entries with m = 1 *)
Definition third1 (PIb : list (X * X) -> list X) (P : R -> R -> R -> Prop) : Prop :=
  forall l : list (R * R), Forall (fun p => snd p <= 1) l ->
    Forall2 (fun p v => fst p < 1 -> exists q, v = Fin q /\ P (fst p) (snd p) q) l (PIb (map F2 l)).
Lemma third1_code : third1 (ellipticPiCarlson (N := XN)) any3.
Proof.
  intros l H. eapply Forall2_impl; [|apply Pi_finite; exact H]. intros p v [A _] Hn. destruct (A Hn) as [q E]. exists q. split; auto. exact I.
Qed.
Lemma third1_exact : third1 PIexact exact3.
Proof.
  intros l _. unfold PIexact. rewrite map_map. induction l as [|[n m] l IH]; constructor; auto. intros _. eexists. split; [reflexivity|]. reflexivity.
Qed.
Definition polp (p : R3) : R3 := (rho p, azim p, pz p).
Lemma to_polar_X p : to_polar (N := XN) (xv p) = xv (polp p).
Proof.
  destruct p as [[x y] z]. pose proof (vc_r_X (x, y, z)) as H. unfold vc_r, F3 in H. cbn [fst snd] in H. unfold to_polar, xv, polp, px, py, pz. cbn [fst snd]. apply tri; [exact H| |]; reflexivity.
Qed.
Lemma longi_nm_X Rr p : 0 < Rr -> 0 <= rho p -> vc_longi_nm (N := XN) (Fin Rr) (Fin (rho p), Fin (pz p)) = F2 (nn (rho p) Rr, mm (rho p) Rr (pz p)) /\ mm (rho p) Rr (pz p) <= 1.
Proof.
  intros hR hr. pose proof (Rsq_pos (pz p)). assert (Q : 0 < (rho p + Rr) * (rho p + Rr)) by (apply Rmult_lt_0_compat; lra).
  split.
  - unfold vc_longi_nm, F2, nn, mm, a2. cbn [fst snd]. xn. rewrite !xdiv_fin by lra. f_equal; f_equal; f_equal; ring.
  - unfold mm, a2. apply Rmult_le_reg_r with ((rho p + Rr) * (rho p + Rr) + pz p * pz p); [lra|].
    unfold Rdiv. rewrite Rmult_assoc, Rinv_l by lra. pose proof (Rsq_pos (rho p - Rr)). nra.
Qed.
Lemma longi_upsi_X g Rr r z P : 0 < r -> 0 < Rr -> r <> Rr -> vc_longi_upsi (N := XN) (Fin g) (Fin Rr) (Fin r, Fin z) (Fin P) = Fin (ClP g Rr r z P).
Proof.
  intros hr hR NE. pose proof PI_RGT_0 as HP. pose proof (lg_off Rr r z NE) as off. destruct (k_val r Rr z hr hR off) as (E1 & E2 & E3 & E4). cbv zeta in *.
  pose proof (a2_pos r Rr z off ltac:(lra) hR) as HA. assert (SA : 0 < sqrt (a2 r Rr z)) by (apply sqrt_lt_R0; auto).
  pose proof (mm_lt r Rr z off ltac:(lra) hR) as M1. pose proof (mm_ge r Rr z off ltac:(lra) hR) as M0. assert (P0 : 0 < r * Rr) by (apply Rmult_lt_0_compat; auto).
  assert (AB : 0 < Rabs (Rr - r)) by (apply Rabs_pos_lt; lra).
  unfold vc_longi_upsi. xn. replace ((r + Rr) * (r + Rr) + z * z) with (a2 r Rr z) by (unfold a2; ring). rewrite (xdiv_fin (4 * r * Rr)) by lra. fold (mm r Rr z).
  rewrite xellipk_fin by auto. rewrite !xsqrt_fin by lra. xn. assert (B1 : 2 * PI * sqrt (r * Rr) <> 0) by (apply Rgt_not_eq, Rmult_lt_0_compat; lra).
  repeat (progress (rewrite xdiv_fin by lra; xn)). f_equal. unfold ClP. rewrite E1. destruct (Rlt_dec r Rr) as [L|L].
  - rewrite Rabs_right by lra. field. repeat split; lra.
  - rewrite Rabs_left by lra. field. repeat split; lra.
Qed.
(** the whole array *)
Lemma longi_at PIb P g Rr pts i p : third1 PIb P -> 0 < Rr -> nth_error pts i = Some p ->
  exists v, (forall b, nth_error (vc_longi_u_gen (N := XN) PIb (Fin g) (Fin Rr) b (map xv pts)) i =
      Some (let u := vc_longi_upsi (N := XN) (Fin g) (Fin Rr) (Fin (rho p), Fin (pz p)) v in
            if b then (Fin 0, u, Fin 0) else (nmul XN (nopp XN u) (Fin (sin (azim p))), nmul XN u (Fin (cos (azim p))), Fin 0))) /\
    (nn (rho p) Rr < 1 -> exists q, v = Fin q /\ P (nn (rho p) Rr) (mm (rho p) Rr (pz p)) q).
Proof.
  intros HT hR Hi. unfold vc_longi_u_gen, vc_longi_u_polar_gen. nT.
  assert (E0 : map (to_polar (N := XN)) (map xv pts) = map xv (map polp pts)) by (rewrite !map_map; apply map_ext; intros; apply to_polar_X).
  nT. rewrite E0. clear E0.
  assert (E1 : map (fun q : X * X * X => (fst (fst q), snd q)) (map xv (map polp pts)) = map F2 (map rzp pts)) by (rewrite !map_map; apply map_ext; reflexivity).
  nT. rewrite E1. clear E1.
  assert (E2 : map (vc_longi_nm (N := XN) (Fin Rr)) (map F2 (map rzp pts)) = map F2 (map (fun q => (nn (rho q) Rr, mm (rho q) Rr (pz q))) pts)).
  { rewrite !map_map. apply map_ext. intros q. apply (proj1 (longi_nm_X Rr q hR (rho_ge q))). }
  nT. rewrite E2. clear E2. 
  assert (H4 : Forall (fun q : R * R => snd q <= 1) (map (fun q => (nn (rho q) Rr, mm (rho q) Rr (pz q))) pts)).
  { rewrite Forall_map. apply Forall_forall. intros q _. apply (proj2 (longi_nm_X Rr q hR (rho_ge q))). }
  pose proof (HT _ H4) as H5. apply Forall2_map_l in H5. revert H5. set (vs := PIb _). clearbody vs. clear H4. intros H5.
  revert i vs H5 Hi. induction pts as [|p0 pts IH]; intros [|i] vs H5 Hi; try discriminate; inversion H5 as [|a v l1 l2 Q1 Q2]; subst.
  - injection Hi as ->. exists v. split; [intros b; reflexivity|exact Q1].
  - exact (IH i l2 Q2 Hi).
Qed.

(** ** Theorems *)
(** C78: with an exact third-kind integral, the velocity at every point off the axis and off the cylinder's surface is
    the Biot-Savart velocity of the half lines *)
Theorem C78_longi_is_biot_savart : forall PIb, third1 PIb exact3 -> forall g Rr (pts : list R3) i p, 0 < Rr -> nth_error pts i = Some p ->
  (px p <> 0 \/ py p <> 0) -> sqrt (px p ^ 2 + py p ^ 2) <> Rr ->
  exists u, nth_error (vc_longi_u_gen (N := XN) PIb (Fin g) (Fin Rr) false (map xv pts)) i = Some (xv u) /\ longi_sheet_velocity g Rr p u.
Proof.
  intros PIb HT g Rr pts i p hR Hi HA HN.
  assert (ER : sqrt (px p ^ 2 + py p ^ 2) = rho p) by (unfold rho; f_equal; ring). rewrite ER in HN.
  assert (hr : 0 < rho p). { unfold rho. apply sqrt_lt_R0. pose proof (Rsq_pos (px p)). pose proof (Rsq_pos (py p)). destruct HA as [A|A]; [pose proof (Rsq_lt (px p) A)|pose proof (Rsq_lt (py p) A)]; lra. }
  destruct (longi_at PIb exact3 g Rr pts i p HT hR Hi) as (v & Ev & Hv). specialize (Ev false). destruct Hv as (q & -> & Eq); [apply nn_lt; auto; lra|].
  cbv zeta in Ev. rewrite longi_upsi_X in Ev by auto. rewrite Eq in Ev. fold (Cl g Rr (rho p) (pz p)) in Ev.
  eexists (- Cl g Rr (rho p) (pz p) * sin (azim p), Cl g Rr (rho p) (pz p) * cos (azim p), 0). split; [rewrite Ev; reflexivity|].
  destruct (azim_polar p) as [P1 P2]. assert (EP : p = (rho p * cos (azim p), rho p * sin (azim p), pz p)) by (destruct p as [[x y] z]; unfold px, py, pz in *; cbn [fst snd] in *; congruence).
  rewrite EP at 1. apply longi_sheet; auto.
Qed.
(** C59: the code itself: finite off the axis and off the surface; missing: the axis (refuted below) *)
Theorem C59_longi_finite_partial : forall g Rr (pts : list R3) i p, 0 < Rr -> nth_error pts i = Some p ->
  (px p <> 0 \/ py p <> 0) -> sqrt (px p ^ 2 + py p ^ 2) <> Rr ->
  (exists u, nth_error (vc_longi_u (N := XN) (Fin g) (Fin Rr) false (map xv pts)) i = Some (xv u)) /\
  (exists u, nth_error (vc_longi_u (N := XN) (Fin g) (Fin Rr) true (map xv pts)) i = Some (xv u)).
Proof.
  intros g Rr pts i p hR Hi HA HN.
  assert (ER : sqrt (px p ^ 2 + py p ^ 2) = rho p) by (unfold rho; f_equal; ring). rewrite ER in HN.
  assert (hr : 0 < rho p). { unfold rho. apply sqrt_lt_R0. pose proof (Rsq_pos (px p)). pose proof (Rsq_pos (py p)). destruct HA as [A|A]; [pose proof (Rsq_lt (px p) A)|pose proof (Rsq_lt (py p) A)]; lra. }
  unfold vc_longi_u. split.
  - destruct (longi_at _ any3 g Rr pts i p third1_code hR Hi) as (v & Ev & Hv). specialize (Ev false). destruct Hv as (q & -> & Eq); [apply nn_lt; auto; lra|].
    cbv zeta in Ev. rewrite longi_upsi_X in Ev by auto. eexists (- _ * sin (azim p), _ * cos (azim p), 0). rewrite Ev. reflexivity.
  - destruct (longi_at _ any3 g Rr pts i p third1_code hR Hi) as (v & Ev & Hv). specialize (Ev true). destruct Hv as (q & -> & Eq); [apply nn_lt; auto; lra|].
    cbv zeta in Ev. rewrite longi_upsi_X in Ev by auto. eexists (0, _, 0). rewrite Ev. reflexivity.
Qed.
Lemma longi_nan g Rr r z v : 0 < Rr -> r = 0 \/ r = Rr -> vc_longi_upsi (N := XN) (Fin g) (Fin Rr) (Fin r, Fin z) v = NaN.
Proof.
  intros hR H. pose proof PI_RGT_0 as HP. pose proof (Rsq_pos z). assert (NM : forall a, nmul XN a NaN = NaN) by (intros []; reflexivity).
  assert (NA : forall a, nadd XN a NaN = NaN) by (intros []; reflexivity). unfold vc_longi_upsi. destruct H as [-> | ->].
  - assert (E : ndiv XN (nmul XN (Fin z) (nsqrt XN (ndiv XN (nmul XN (nmul XN (nZ XN 4) (Fin 0)) (Fin Rr)) (nadd XN (sq (N := XN) (nadd XN (Fin 0) (Fin Rr))) (sq (N := XN) (Fin z))))))
        (nmul XN (nmul XN (nZ XN 2) (npi XN)) (nsqrt XN (nmul XN (Fin 0) (Fin Rr)))) = NaN).
    { xn. pose proof (Rsq_lt Rr ltac:(lra)). rewrite Rplus_0_l. rewrite xdiv_fin by lra. replace (4 * 0 * Rr / (Rr * Rr + z * z)) with 0 by (field; lra). rewrite Rmult_0_l.
      rewrite xsqrt_fin by lra. rewrite sqrt_0. xn. rewrite !Rmult_0_r. unfold xdiv. rewrite Reqb_refl. unfold xinf_mul. rewrite !(proj2 (Rltb_false 0 0)) by lra. reflexivity. }
    cbv zeta. rewrite E. change (nmul XN NaN ?a) with (NaN : X). rewrite NA, NM. reflexivity.
  - assert (E : ndiv XN (nadd XN (nsub XN (Fin Rr) (Fin Rr)) (nabs XN (nsub XN (Fin Rr) (Fin Rr)))) (nmul XN (nZ XN 2) (nabs XN (nsub XN (Fin Rr) (Fin Rr)))) = NaN).
    { xn. rewrite Rminus_eq_0, Rabs_R0. rewrite Rplus_0_l, Rmult_0_r. unfold xdiv. rewrite Reqb_refl. unfold xinf_mul. rewrite !(proj2 (Rltb_false 0 0)) by lra. reflexivity. }
    cbv zeta. rewrite E. change (nadd XN NaN ?a) with (NaN : X). rewrite NM. reflexivity.
Qed.
(** On the axis (and on the sheet) the answer is NaN whatever the intensity, also for gamma_l = 0 *)
Theorem C59_axis_refuted : forall g Rr (pts : list R3) i p, 0 < Rr -> nth_error pts i = Some p ->
  (px p = 0 /\ py p = 0) \/ sqrt (px p ^ 2 + py p ^ 2) = Rr ->
  nth_error (vc_longi_u (N := XN) (Fin g) (Fin Rr) false (map xv pts)) i = Some (NaN, NaN, Fin 0).
Proof.
  intros g Rr pts i p hR Hi H.
  assert (ER : sqrt (px p ^ 2 + py p ^ 2) = rho p) by (unfold rho; f_equal; ring). rewrite ER in H.
  assert (HH : rho p = 0 \/ rho p = Rr). { destruct H as [[A B]|H]; auto. left. unfold rho. rewrite A, B, Rmult_0_l, Rplus_0_l. apply sqrt_0. }
  destruct (longi_at _ any3 g Rr pts i p third1_code hR Hi) as (v & Ev & _). specialize (Ev false). cbv zeta in Ev. rewrite (longi_nan g Rr _ _ v hR HH) in Ev. exact Ev.
Qed.
Example C78_case : exists u, nth_error (vc_longi_u_gen (N := XN) PIexact (Fin 2) (Fin 1) false (map xv [(0,0,1); (3,0,1)])) 1 = Some (xv u) /\ longi_sheet_velocity 2 1 (3, 0, 1) u.
Proof.
  apply (C78_longi_is_biot_savart PIexact third1_exact 2 1 [(0,0,1); (3,0,1)] 1%nat); auto; try lra; unfold px, py; cbn [fst snd]; [left; lra|].
  replace (3 ^ 2 + 0 ^ 2) with (3 * 3) by ring. rewrite sqrt_square by lra. lra.
Qed.
