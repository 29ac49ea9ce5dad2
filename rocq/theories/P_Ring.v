(** * Properties of VortexRing.py: C45-C50 *)
From Coquelicot Require Import Coquelicot.
From Coq Require Import ZArith List Bool Arith Lia String Reals Lra Psatz.
From Verif Require Import Num NumR NumX M_Cylinder M_Ring L_List L_X Spec SpecBS L_Calc L_Ell P_Line.
Import ListNotations.
Local Open Scope R_scope.

Ltac tup := repeat match goal with |- (_, _) = (_, _) => apply f_equal2 end.
(** ** the Biot-Savart integral of the circle *)
Section Circle.
  Variables G r Rr z psi : R.
  Hypothesis off : 0 < (r - Rr) * (r - Rr) + z * z.
  Hypothesis hr : 0 <= r.
  Hypothesis hR : 0 < Rr.
  Let d3 t := / (dd r Rr z t * sqrt (dd r Rr z t)).
  Lemma kernel_circle th :
    bs_kernel (r * cos psi, r * sin psi, z) (Rr * cos th, Rr * sin th, 0) (- sin th, cos th, 0) =
    (/ (4 * PI) * (d3 (th - psi) * (z * cos th)), / (4 * PI) * (d3 (th - psi) * (z * sin th)), / (4 * PI) * (d3 (th - psi) * (Rr - r * cos (th - psi)))).
  Proof using off hr hR.
    pose proof PI_RGT_0 as HP. unfold bs_kernel. set (dv := sub3 _ _).
    assert (DV : dv = (r * cos psi - Rr * cos th, r * sin psi - Rr * sin th, z)).
    { unfold dv, sub3, px, py, pz. cbn. f_equal. ring. }
    assert (CM : cos (th - psi) = cos th * cos psi + sin th * sin psi) by apply cos_minus.
    assert (L : inner dv dv = dd r Rr z (th - psi)).
    { rewrite DV. unfold inner, px, py, pz, dd. cbn. rewrite CM.
      assert (C1 := sin2_cos2 psi). assert (C2 := sin2_cos2 th). unfold Rsqr in *.
      replace (r * r) with (r * r * (sin psi * sin psi + cos psi * cos psi)) by (rewrite C1; ring).
      replace (Rr * Rr) with (Rr * Rr * (sin th * sin th + cos th * cos th)) by (rewrite C2; ring). ring. }
    pose proof (dd_pos r Rr z off hr hR (th - psi)) as DP.
    assert (L3 : length3 dv ^ 3 = dd r Rr z (th - psi) * sqrt (dd r Rr z (th - psi))).
    { unfold length3. rewrite L. cbn [pow]. rewrite Rmult_1_r, <- Rmult_assoc, sqrt_sqrt by lra. reflexivity. }
    rewrite L3. rewrite DV. unfold vprod, scal3, px, py, pz, d3. cbn [fst snd]. rewrite CM.
    assert (0 < sqrt (dd r Rr z (th - psi))) by (apply sqrt_lt_R0; auto).
    assert (C2 := sin2_cos2 th). unfold Rsqr in C2.
    f_equal; [f_equal|].
    - field. repeat split; lra.
    - field. repeat split; lra.
    - replace (- sin th * (r * sin psi - Rr * sin th) - cos th * (r * cos psi - Rr * cos th))
        with (Rr * (sin th * sin th + cos th * cos th) - r * (cos th * cos psi + sin th * sin psi)) by ring.
      rewrite C2. field. repeat split; lra.
  Qed.
  Lemma d3_int : is_RInt d3 0 (2 * PI) (II2 r Rr z).
  Proof using off hr hR. apply int2; auto. Qed.
  (** int cos/d^3 *)
  Definition Jc : R := if Req_EM_T r 0 then 0 else ((r * r + Rr * Rr + z * z) * II2 r Rr z - II1 r Rr z) / (2 * r * Rr).
  Lemma Jc_int : is_RInt (fun t => cos t * d3 t) 0 (2 * PI) Jc.
  Proof using off hr hR.
    unfold Jc. destruct (Req_EM_T r 0) as [E|E].
    - assert (ED : forall t, d3 t = d3 0) by (intros; unfold d3, dd; rewrite E, !Rmult_0_r, !Rmult_0_l; reflexivity).
      apply is_RInt_ext with (fun t => d3 0 * cos t); [intros t _; rewrite (ED t); eqR; ring|].
      replace 0 with (scal (d3 0) (sin (2 * PI) - sin 0)) at 2.
      + apply (is_RInt_scal cos). apply (is_RInt_derive sin cos).
        * intros. auto_derive; auto. ring.
        * intros. apply (ex_derive_continuous cos). auto_derive. auto.
      + rewrite sin_2PI, sin_0. change (d3 0 * (0 - 0) = 0). ring.
    - assert (K := is_RInt_scal _ _ _ (/ (2 * r * Rr)) _ (is_RInt_minus _ _ _ _ _ _
         (is_RInt_scal _ _ _ (r * r + Rr * Rr + z * z) _ d3_int) (int1 r Rr z off hr hR))).
      match goal with |- is_RInt _ _ _ ?v => replace v with (/ (2 * r * Rr) * ((r * r + Rr * Rr + z * z) * II2 r Rr z + - II1 r Rr z)) end.
      2: { field. lra. }
      eapply is_RInt_ext; [|exact K]. intros t _.
      match goal with |- ?a = ?b => change (/ (2 * r * Rr) * ((r * r + Rr * Rr + z * z) * d3 t + - / sqrt (dd r Rr z t)) = cos t * d3 t) end.
      unfold d3. pose proof (dd_pos r Rr z off hr hR t) as DP. assert (0 < sqrt (dd r Rr z t)) by (apply sqrt_lt_R0; auto).
      apply (Rmult_eq_reg_r (2 * r * Rr * (dd r Rr z t * sqrt (dd r Rr z t)))).
      + field_simplify; [|repeat split; lra|repeat split; lra]. unfold dd. ring.
      + apply Rmult_integral_contrapositive_currified; [apply Rmult_integral_contrapositive_currified; lra|].
        apply Rgt_not_eq, Rmult_lt_0_compat; auto.
  Qed.
  Lemma d3_per t : d3 (t + 2 * PI) = d3 t.
  Proof. unfold d3, dd. rewrite <- (cos_period t 1). cbn [INR]. replace (t + 2 * 1 * PI) with (t + 2 * PI) by ring. reflexivity. Qed.
  (** rotating the integration variable *)
  Lemma rot_int (f : R -> R) l : (forall x, continuous f x) -> (forall x, f (x + 2 * PI) = f x) -> is_RInt f 0 (2 * PI) l ->
    is_RInt (fun t => f (t - psi)) 0 (2 * PI) l.
  Proof.
    intros Hc Hp Hi. rewrite <- (RInt_val _ _ _ _ Hi). rewrite <- (RInt_periodic f (2 * PI) (- psi)) by auto.
    apply cont_is_RInt. intros x. apply (continuous_comp (fun t => t + - psi) f).
    - apply (ex_derive_continuous (fun t => t + - psi)). auto_derive. auto.
    - apply Hc.
  Qed.
  Definition circR : R3 :=
    (G * Rr / (4 * PI) * z * Jc * cos psi, G * Rr / (4 * PI) * z * Jc * sin psi, G * Rr / (4 * PI) * (Rr * II2 r Rr z - r * Jc)).
  Lemma circle_BS : circle_velocity G Rr (r * cos psi, r * sin psi, z) circR.
  Proof using off hr hR.
    pose proof PI_RGT_0 as HP.
    assert (Cd : forall x, continuous d3 x) by (intros; apply dd_cont3; auto).
    assert (Ccos : forall x, continuous cos x) by (intros; apply (ex_derive_continuous cos); auto_derive; auto).
    assert (Csin : forall x, continuous sin x) by (intros; apply (ex_derive_continuous sin); auto_derive; auto).
    assert (Pc : forall x, cos (x + 2 * PI) = cos x) by (intros x; rewrite <- (cos_period x 1); f_equal; cbn [INR]; ring).
    assert (Ps : forall x, sin (x + 2 * PI) = sin x) by (intros x; rewrite <- (sin_period x 1); f_equal; cbn [INR]; ring).
    assert (A1 : is_RInt (fun t => cos (t - psi) * d3 (t - psi)) 0 (2 * PI) Jc).
    { apply (rot_int (fun t => cos t * d3 t)); [| |apply Jc_int].
      - intros x. apply (continuous_mult cos d3); auto.
      - intros x. rewrite Pc, d3_per. reflexivity. }
    assert (A2 : is_RInt (fun t => sin (t - psi) * d3 (t - psi)) 0 (2 * PI) 0).
    { apply (rot_int (fun t => sin t * d3 t)); [| |apply int_sin; auto].
      - intros x. apply (continuous_mult sin d3); auto.
      - intros x. rewrite Ps, d3_per. reflexivity. }
    assert (A3 : is_RInt (fun t => d3 (t - psi)) 0 (2 * PI) (II2 r Rr z)).
    { apply (rot_int d3); auto; [|apply d3_int]. intros; apply d3_per. }
    unfold circR. split; [|split]; unfold px, py, pz; cbn [fst snd].
    - assert (K := is_RInt_scal _ _ _ (G * Rr / (4 * PI) * z) _ (is_RInt_minus _ _ _ _ _ _ (is_RInt_scal _ _ _ (cos psi) _ A1) (is_RInt_scal _ _ _ (sin psi) _ A2))).
      match goal with |- is_RInt _ _ _ ?v => replace v with (G * Rr / (4 * PI) * z * (cos psi * Jc + - (sin psi * 0))) by ring end.
      eapply is_RInt_ext; [|exact K]. intros t _. rewrite kernel_circle. cbn [fst snd].
      change (G * Rr / (4 * PI) * z * (cos psi * (cos (t - psi) * d3 (t - psi)) + - (sin psi * (sin (t - psi) * d3 (t - psi)))) =
        G * Rr * (/ (4 * PI) * (d3 (t - psi) * (z * cos t)))).
      replace (cos t) with (cos psi * cos (t - psi) - sin psi * sin (t - psi)); [field; lra|].
      replace t with (psi + (t - psi)) at 3 by ring. rewrite cos_plus. reflexivity.
    - assert (K := is_RInt_scal _ _ _ (G * Rr / (4 * PI) * z) _ (is_RInt_plus _ _ _ _ _ _ (is_RInt_scal _ _ _ (sin psi) _ A1) (is_RInt_scal _ _ _ (cos psi) _ A2))).
      match goal with |- is_RInt _ _ _ ?v => replace v with (G * Rr / (4 * PI) * z * (sin psi * Jc + (cos psi * 0))) by ring end.
      eapply is_RInt_ext; [|exact K]. intros t _. rewrite kernel_circle. cbn [fst snd].
      change (G * Rr / (4 * PI) * z * (sin psi * (cos (t - psi) * d3 (t - psi)) + (cos psi * (sin (t - psi) * d3 (t - psi)))) =
        G * Rr * (/ (4 * PI) * (d3 (t - psi) * (z * sin t)))).
      replace (sin t) with (sin psi * cos (t - psi) + cos psi * sin (t - psi)); [field; lra|].
      replace t with (psi + (t - psi)) at 3 by ring. rewrite sin_plus. reflexivity.
    - assert (K := is_RInt_scal _ _ _ (G * Rr / (4 * PI)) _ (is_RInt_minus _ _ _ _ _ _ (is_RInt_scal _ _ _ Rr _ A3) (is_RInt_scal _ _ _ r _ A1))).
      match goal with |- is_RInt _ _ _ ?v => replace v with (G * Rr / (4 * PI) * (Rr * II2 r Rr z + - (r * Jc))) by ring end.
      eapply is_RInt_ext; [|exact K]. intros t _. rewrite kernel_circle. cbn [fst snd].
      change (G * Rr / (4 * PI) * (Rr * d3 (t - psi) + - (r * (cos (t - psi) * d3 (t - psi)))) =
        G * Rr * (/ (4 * PI) * (d3 (t - psi) * (Rr - r * cos (t - psi))))). field. lra.
  Qed.
End Circle.

(** polar components of the circle's velocity *)
Definition Wr (G Rr r z : R) : R := G * Rr / (4 * PI) * z * Jc r Rr z.
Definition Wz (G Rr r z : R) : R := G * Rr / (4 * PI) * (Rr * II2 r Rr z - r * Jc r Rr z).
Lemma circR_W G r Rr z psi : circR G r Rr z psi = (Wr G Rr r z * cos psi, Wr G Rr r z * sin psi, Wz G Rr r z).
Proof. reflexivity. Qed.

Section Lift.
  Variables G r Rr z : R.
  Hypothesis off : 0 < (r - Rr) * (r - Rr) + z * z.
  Hypothesis hr : 0 < r.
  Hypothesis hR : 0 < Rr.
  Let A := a2 r Rr z.
  Let m := mm r Rr z.
  Lemma lift_facts : 0 < A /\ m < 1 /\ 0 < m /\ 0 < sqrt A /\ sqrt A * sqrt A = A.
  Proof using off hr hR.
    pose proof (a2_pos r Rr z off ltac:(lra) hR). pose proof (mm_lt r Rr z off ltac:(lra) hR).
    fold A in H. fold m in H0. assert (0 < r * Rr) by (apply Rmult_lt_0_compat; auto).
    repeat split; auto; [|apply sqrt_lt_R0; auto|apply sqrt_sqrt; lra].
    unfold m, mm. fold A. apply Rdiv_lt_0_compat; auto. lra.
  Qed.
  Lemma singularb_X : ring_u_polar_singularb (N := XN) (Fin G) (Fin Rr) (Fin r, Fin z) = (Fin (Wr G Rr r z), Fin (Wz G Rr r z)).
  Proof using off hr hR.
    destruct lift_facts as (HA & Hm & Hm0 & HS & SS). pose proof PI_RGT_0 as HP.
    assert (0 < r * Rr) by (apply Rmult_lt_0_compat; auto).
    unfold ring_u_polar_singularb. xn. change ((r + Rr) * (r + Rr) + z * z) with A. rewrite xsqrt_fin by lra. xn.
    rewrite SS. rewrite (xdiv_fin (4 * r * Rr) A) by lra. change (4 * r * Rr / A) with m.
    rewrite xellipk_fin by auto. rewrite xellipe_fin by lra.
    assert (S3 : A * sqrt A <> 0) by (apply Rgt_not_eq, Rmult_lt_0_compat; auto).
    assert (B0 : - (2) * r * Rr <> 0) by lra.
    repeat (rewrite xdiv_fin by lra; xn).
    unfold Wr, Wz, Jc. destruct (Req_EM_T r 0); [lra|]. unfold II1, II2. fold A m.
    f_equal; f_equal; field; repeat split; try lra.
  Qed.
  Lemma singular_X : ring_u_polar_singular (N := XN) (Fin G) (Fin Rr) (Fin r, Fin z) = (Fin (Wr G Rr r z), Fin (Wz G Rr r z)).
  Proof using off hr hR.
    destruct lift_facts as (HA & Hm & Hm0 & HS & SS). pose proof PI_RGT_0 as HP.
    assert (P : 0 < r * Rr) by (apply Rmult_lt_0_compat; auto).
    assert (Q : 0 < Rr / r) by (apply Rdiv_lt_0_compat; auto).
    unfold ring_u_polar_singular. xn. change ((r + Rr) * (r + Rr) + z * z) with A.
    rewrite (xdiv_fin (4 * r * Rr) A) by lra. change (4 * r * Rr / A) with m.
    rewrite xellipk_fin by auto. rewrite xellipe_fin by lra. rewrite xsqrt_fin by lra. xn.
    assert (B0 : 2 * r * (1 - m) <> 0) by (apply Rgt_not_eq, Rmult_lt_0_compat; lra).
    assert (B1 : 4 * PI * Rr <> 0) by (apply Rgt_not_eq, Rmult_lt_0_compat; lra).
    rewrite !xdiv_fin by lra. xn. rewrite !xpow_fin by auto. rewrite Rpw_3half, Rpw_half by lra. xn. rewrite !xdiv_fin by lra. xn.
    (* sqrt m * sqrt (R/r) = 2 R / sqrt A *)
    assert (K : sqrt m * sqrt (Rr / r) = 2 * Rr / sqrt A).
    { rewrite <- sqrt_mult by lra. unfold m, mm. fold A.
      replace (4 * r * Rr / A * (Rr / r)) with ((2 * Rr / sqrt A) * (2 * Rr / sqrt A)).
      - apply sqrt_square. apply Rdiv_le_0_compat; lra.
      - transitivity (4 * Rr * Rr / (sqrt A * sqrt A)); [field; lra|]. rewrite SS. field. lra. }
    assert (HmA : m * A = 4 * r * Rr) by (unfold m, mm; fold A; field; lra).
    assert (HAz : r * r + Rr * Rr + z * z = A - 2 * r * Rr) by (unfold A, a2; ring).
    unfold Wr, Wz, Jc. destruct (Req_EM_T r 0); [lra|]. unfold II1, II2. fold A m. rewrite HAz.
    f_equal; f_equal.
    - transitivity (G / (4 * PI * Rr) * z / Rr * (Rr / r) * (sqrt m * sqrt (Rr / r)) * ((2 - m) / (2 - 2 * m) * Eell m - Kell m)); [field; repeat split; lra|].
      rewrite K. replace Rr with (m * A / (4 * r)) by (rewrite HmA; field; lra). 
      field. repeat split; try lra; apply Rgt_not_eq; try apply Rmult_lt_0_compat; lra.
    - transitivity (G / (4 * PI * Rr) * (sqrt m * sqrt (Rr / r)) * ((Rr * m / (2 * r * (1 - m)) - (2 - m) / (2 - 2 * m)) * Eell m + Kell m)); [field; repeat split; lra|].
      rewrite K. replace Rr with (m * A / (4 * r)) by (rewrite HmA; field; lra).
      field. repeat split; try lra; apply Rgt_not_eq; try apply Rmult_lt_0_compat; lra.
  Qed.
End Lift.
(** the axis *)
Lemma W_axis G Rr z : 0 < Rr -> Wr G Rr 0 z = 0 /\ Wz G Rr 0 z = G / (2 * Rr) * (1 / Rpw (1 + z / Rr * (z / Rr)) (3/2)).
Proof.
  intros HR. pose proof PI_RGT_0 as HP. unfold Wr, Wz, Jc. destruct (Req_EM_T 0 0); [|congruence]. split; [ring|].
  unfold II2, mm. replace (4 * 0 * Rr / a2 0 Rr z) with 0 by (unfold Rdiv; ring). rewrite Eell_0.
  assert (E : a2 0 Rr z = Rr * Rr * (1 + z / Rr * (z / Rr))) by (unfold a2; field; lra).
  pose proof (Rsq_pos (z / Rr)). set (w := 1 + z / Rr * (z / Rr)) in *. assert (0 < w) by (unfold w; lra).
  rewrite E, Rpw_3half by lra. assert (0 < sqrt w) by (apply sqrt_lt_R0; lra).
  pose proof (Rsq_lt Rr ltac:(lra)).
  rewrite sqrt_mult, sqrt_square by lra. field. repeat split; lra.
Qed.

(** the two small neighbourhoods inside which the code returns something else *)
Definition near_axis (Rr r : R) : Prop := r < 1/10000000 * Rr.
Definition near_ring (Rr r z : R) : Prop := Rabs (r - Rr) < 1/10000000 * Rr /\ Rabs z < 1/10000000.
Lemma near_ring_b Rr r z : reflect (near_ring Rr r z) (Rltb (Rabs (r - Rr)) (1/10000000 * Rr) && Rltb (Rabs z) (1/10000000)).
Proof.
  unfold near_ring. destruct (Rltb_spec (Rabs (r - Rr)) (1/10000000 * Rr)), (Rltb_spec (Rabs z) (1/10000000)); cbn; constructor; tauto.
Qed.
Lemma not_near_off Rr r z : 0 < Rr -> ~ near_ring Rr r z -> 0 < (r - Rr) * (r - Rr) + z * z.
Proof.
  intros HR H. pose proof (Rsq_pos (r - Rr)). pose proof (Rsq_pos z). destruct (Req_dec (r - Rr) 0) as [E|E]; [|pose proof (Rsq_lt _ E); lra].
  destruct (Req_dec z 0) as [E'|E']; [|pose proof (Rsq_lt _ E'); lra].
  exfalso. apply H. unfold near_ring. rewrite E, E', Rabs_R0. lra.
Qed.
Lemma axis_not_ring Rr r z : 0 < Rr -> near_axis Rr r -> ~ near_ring Rr r z.
Proof. unfold near_axis, near_ring. intros HR H [H1 _]. unfold Rabs in H1. destruct (Rcase_abs (r - Rr)); lra. Qed.

Lemma rxy x y : 0 <= x * x + y * y.
Proof. pose proof (Rsq_pos x). pose proof (Rsq_pos y). lra. Qed.
Lemma pol_reg G Rr eps x y z : 0 < Rr -> let r := sqrt (x * x + y * y) in ~ near_axis Rr r -> ~ near_ring Rr r z ->
  ring_u_pol (N := XN) (Fin G) (Fin Rr) eps (Fin x, Fin y, Fin z) = (Fin (Wr G Rr r z), Fin (Wz G Rr r z)).
Proof.
  intros HR r NA NR. unfold near_axis in NA. pose proof (not_near_off _ _ _ HR NR) as OFF.
  assert (Hr : 0 < r) by (unfold near_axis in NA; lra).
  pose proof (singularb_X G r Rr z OFF Hr HR) as S. unfold ring_u_polar_singularb in S.
  unfold ring_u_pol.
  assert (ER : nsqrt XN (nadd XN (sq (Fin x : XN)) (sq (Fin y : XN))) = Fin r) by (xn; rewrite xsqrt_fin by apply rxy; reflexivity).
  rewrite ER.
  assert (E1 : nlt XN (nabs XN (nsub XN (Fin r) (Fin Rr))) (nmul XN EPSR (Fin Rr)) && nlt XN (nabs XN (Fin z)) EPSR = false).
  { change (Rltb (Rabs (r - Rr)) (1/10000000 * Rr) && Rltb (Rabs z) (1/10000000) = false). destruct (near_ring_b Rr r z); [contradiction|reflexivity]. }
  assert (E2 : nlt XN (Fin r) (nmul XN EPSR (Fin Rr)) = false) by (apply (Rltb_false r (1/10000000 * Rr)); lra).
  rewrite E1, E2. rewrite <- S. cbv zeta. f_equal.
  destruct (lift_facts r Rr z OFF Hr HR) as (HA & Hm & Hm0 & HS & SS).
  assert (P : 0 < r * Rr) by (apply Rmult_lt_0_compat; auto). pose proof PI_RGT_0.
  xn. change ((r + Rr) * (r + Rr) + z * z) with (a2 r Rr z). rewrite xsqrt_fin by lra. xn. rewrite SS.
  rewrite (xdiv_fin (4 * r * Rr) _) by lra. change (4 * r * Rr / a2 r Rr z) with (mm r Rr z).
  rewrite xellipk_fin by auto. rewrite xellipe_fin by lra.
  assert (S3 : a2 r Rr z * sqrt (a2 r Rr z) <> 0) by (apply Rgt_not_eq, Rmult_lt_0_compat; auto).
  assert (B0 : - (2) * r * Rr <> 0) by lra.
  repeat (rewrite xdiv_fin by lra; xn). f_equal. field. split; lra.
Qed.
Lemma pol_axis G Rr eps x y z : 0 < Rr -> let r := sqrt (x * x + y * y) in near_axis Rr r ->
  ring_u_pol (N := XN) (Fin G) (Fin Rr) eps (Fin x, Fin y, Fin z) = (Fin 0, Fin (G / (2 * Rr) * (1 / Rpw (1 + z / Rr * (z / Rr)) (3/2)))).
Proof.
  intros HR r NA. pose proof (axis_not_ring Rr r z HR NA) as NR. unfold ring_u_pol.
  assert (ER : nsqrt XN (nadd XN (sq (Fin x : XN)) (sq (Fin y : XN))) = Fin r) by (xn; rewrite xsqrt_fin by apply rxy; reflexivity).
  rewrite ER.
  assert (E1 : nlt XN (nabs XN (nsub XN (Fin r) (Fin Rr))) (nmul XN EPSR (Fin Rr)) && nlt XN (nabs XN (Fin z)) EPSR = false).
  { change (Rltb (Rabs (r - Rr)) (1/10000000 * Rr) && Rltb (Rabs z) (1/10000000) = false). destruct (near_ring_b Rr r z); [contradiction|reflexivity]. }
  assert (E2 : nlt XN (Fin r) (nmul XN EPSR (Fin Rr)) = true) by (apply (Rltb_true r (1/10000000 * Rr)); exact NA).
  rewrite E1, E2. pose proof (Rsq_pos (z / Rr)) as Q. assert (0 < 1 + z / Rr * (z / Rr)) by lra.
  pose proof (Rpw_gt0 _ (3/2) H). xn. rewrite !xdiv_fin by lra. xn. rewrite xpow_fin by auto. rewrite xdiv_fin by lra. reflexivity.
Qed.
Lemma pol_ring G Rr eps x y z : 0 < Rr -> let r := sqrt (x * x + y * y) in near_ring Rr r z ->
  ring_u_pol (N := XN) (Fin G) (Fin Rr) eps (Fin x, Fin y, Fin z) =
  (Fin 0, if neqb XN eps (Fin 0) then Fin (G / (4 * Rr)) else nmul XN (Fin (G / (4 * PI * Rr))) (nsub XN (nlog XN (ndiv XN (Fin (8 * Rr)) eps)) (Fin (1/4)))).
Proof.
  intros HR r NR. unfold ring_u_pol. pose proof PI_RGT_0.
  assert (ER : nsqrt XN (nadd XN (sq (Fin x : XN)) (sq (Fin y : XN))) = Fin r) by (xn; rewrite xsqrt_fin by apply rxy; reflexivity).
  rewrite ER.
  assert (E1 : nlt XN (nabs XN (nsub XN (Fin r) (Fin Rr))) (nmul XN EPSR (Fin Rr)) && nlt XN (nabs XN (Fin z)) EPSR = true).
  { change (Rltb (Rabs (r - Rr)) (1/10000000 * Rr) && Rltb (Rabs z) (1/10000000) = true). destruct (near_ring_b Rr r z); [reflexivity|contradiction]. }
  rewrite E1. xn.
  assert (4 * PI * Rr <> 0) by (apply Rgt_not_eq, Rmult_lt_0_compat; lra). rewrite !xdiv_fin by lra. reflexivity.
Qed.

(** ** C45 *)
Theorem C45_ring_u_biot_savart :
  forall (G Rr : R) (eps : XN) (x y z : R), 0 < Rr ->
  let r := sqrt (x * x + y * y) in
  r = 0 \/ 1/10000000 * Rr <= r -> ~ (Rabs (r - Rr) < 1/10000000 * Rr /\ Rabs z < 1/10000000) ->
  exists u, ring_u (N := XN) (Fin G) (Fin Rr) eps (Fin x, Fin y, Fin z) = xv u /\ circle_velocity G Rr (x, y, z) u.
Proof.
  intros G Rr eps x y z HR r Hr NR. destruct (Ratan2_polar_all y x) as [PX PY]. fold r in PX, PY.
  assert (H0 : 0 <= r) by apply sqrt_pos.
  pose proof (not_near_off Rr r z HR NR) as OFF.
  exists (circR G r Rr z (Ratan2 y x)). split.
  - rewrite circR_W. unfold ring_u.
    assert (E : ring_u_pol (N := XN) (Fin G) (Fin Rr) eps (Fin x, Fin y, Fin z) = (Fin (Wr G Rr r z), Fin (Wz G Rr r z))).
    { destruct Hr as [Hr|Hr].
      - rewrite pol_axis; auto; [|fold r; rewrite Hr; unfold near_axis; lra]. destruct (W_axis G Rr z HR) as [E1 E2]. rewrite Hr, E1, E2. reflexivity.
      - apply pol_reg; auto. fold r. unfold near_axis. lra. }
    rewrite E. reflexivity.
  - pose proof (circle_BS G r Rr z (Ratan2 y x) OFF H0 HR) as K. rewrite PX, PY in K. exact K.
Qed.
Theorem C45_singular_biot_savart :
  forall G Rr r z psi, 0 < Rr -> 0 < r -> r <> Rr \/ z <> 0 ->
  exists ur uz,
    ring_u_polar_singular (N := XN) (Fin G) (Fin Rr) (Fin r, Fin z) = (Fin ur, Fin uz) /\
    ring_u_polar_singularb (N := XN) (Fin G) (Fin Rr) (Fin r, Fin z) = (Fin ur, Fin uz) /\
    circle_velocity G Rr (r * cos psi, r * sin psi, z) (ur * cos psi, ur * sin psi, uz).
Proof.
  intros G Rr r z psi HR Hr H.
  assert (OFF : 0 < (r - Rr) * (r - Rr) + z * z).
  { pose proof (Rsq_pos (r - Rr)). pose proof (Rsq_pos z). destruct H as [H|H]; [pose proof (Rsq_lt (r - Rr) ltac:(lra))|pose proof (Rsq_lt z H)]; lra. }
  exists (Wr G Rr r z), (Wz G Rr r z). split; [apply singular_X; auto|]. split; [apply singularb_X; auto|].
  rewrite <- circR_W. apply circle_BS; auto. lra.
Qed.
Lemma ring_u_polar_eps0 G Rr z0 reg r z : 0 < Rr -> 0 <= r ->
  ring_u_polar (N := XN) (Fin G) (Fin Rr) (Fin z0) (Fin 0) reg (Fin r, Fin z) =
  Ok (ring_u_pol (N := XN) (Fin G) (Fin Rr) (Fin 0) (Fin r, Fin 0, Fin (z - z0))).
Proof.
  intros HR Hr. unfold ring_u_polar.
  assert (ES : sqrt (r * r + 0 * 0) = r) by (replace (r * r + 0 * 0) with (r * r) by ring; apply sqrt_square; auto).
  set (zz := z - z0). change (nsub XN (Fin z) (Fin z0)) with (Fin zz : XN).
  unfold ring_near. replace (neqb XN (Fin 0) (nZ XN 0)) with true by (symmetry; apply (Reqb_true 0 0); reflexivity).
  unfold bind.
  change (nlt XN (nabs XN (nsub XN (Fin r) (Fin Rr))) (nmul XN EPSR (Fin Rr)) && nlt XN (nabs XN (Fin zz)) EPSR)
    with (Rltb (Rabs (r - Rr)) (1/10000000 * Rr) && Rltb (Rabs zz) (1/10000000))%bool.
  change (nlt XN (Fin r) (nmul XN EPSR (Fin Rr))) with (Rltb r (1/10000000 * Rr)).
  f_equal. destruct (near_ring_b Rr r zz) as [NR|NR].
  - rewrite pol_ring by (auto; rewrite ES; auto). replace (neqb XN (Fin 0) (Fin 0)) with true by (symmetry; apply (Reqb_true 0 0); reflexivity).
    xn. rewrite xdiv_fin by lra. reflexivity.
  - destruct (Rltb_spec r (1/10000000 * Rr)) as [NA|NA].
    + rewrite pol_axis by (auto; rewrite ES; auto). pose proof (Rsq_pos (zz / Rr)) as Q. assert (H : 0 < 1 + zz / Rr * (zz / Rr)) by lra.
      pose proof (Rpw_gt0 _ (3/2) H). xn. rewrite !xdiv_fin by lra. xn. rewrite xpow_fin by auto. rewrite xdiv_fin by lra. reflexivity.
    + rewrite pol_reg by (auto; rewrite ES; auto). rewrite ES. apply singular_X; auto; [apply not_near_off; auto|lra].
Qed.
Theorem C45_ring_u_polar_biot_savart :
  forall G Rr z0 reg r z psi, 0 < Rr ->
  r = 0 \/ 1/10000000 * Rr <= r -> ~ (Rabs (r - Rr) < 1/10000000 * Rr /\ Rabs (z - z0) < 1/10000000) ->
  exists ur uz,
    ring_u_polar (N := XN) (Fin G) (Fin Rr) (Fin z0) (Fin 0) reg (Fin r, Fin z) = Ok ((Fin ur : XN), (Fin uz : XN)) /\
    circle_velocity G Rr (r * cos psi, r * sin psi, z - z0) (ur * cos psi, ur * sin psi, uz).
Proof.
  intros G Rr z0 reg r z psi HR Hr NR. assert (H0 : 0 <= r) by lra.
  assert (ES : sqrt (r * r + 0 * 0) = r) by (replace (r * r + 0 * 0) with (r * r) by ring; apply sqrt_square; auto).
  rewrite ring_u_polar_eps0 by auto. pose proof (not_near_off Rr r (z - z0) HR NR) as OFF.
  exists (Wr G Rr r (z - z0)), (Wz G Rr r (z - z0)). split; [|rewrite <- circR_W; apply circle_BS; auto]. f_equal.
  destruct Hr as [Hr|Hr].
  - rewrite pol_axis by (auto; rewrite ES, Hr; unfold near_axis; lra). rewrite Hr. destruct (W_axis G Rr (z - z0) HR) as [E1 E2]. rewrite E1, E2. reflexivity.
  - rewrite pol_reg; auto; rewrite ES; auto. unfold near_axis. lra.
Qed.
Example C45_nonvacuous : let r := sqrt (3 * 3 + 4 * 4) in r = 5 /\ 1/10000000 * 1 <= r /\ ~ (Rabs (r - 1) < 1/10000000 * 1 /\ Rabs 0 < 1/10000000).
Proof.
  assert (E : sqrt (3 * 3 + 4 * 4) = 5) by (replace (3*3+4*4) with (5*5) by ring; apply sqrt_square; lra).
  cbn zeta. rewrite E. repeat split; try lra. intros [H _]. rewrite Rabs_right in H; lra.
Qed.

(** ** C46 *)
Theorem C46_singular_forms_agree : forall G Rr r z, 0 < Rr -> 0 < r -> r <> Rr \/ z <> 0 ->
  ring_u_polar_singular (N := XN) (Fin G) (Fin Rr) (Fin r, Fin z) = ring_u_polar_singularb (N := XN) (Fin G) (Fin Rr) (Fin r, Fin z).
Proof.
  intros G Rr r z HR Hr H. destruct (C45_singular_biot_savart G Rr r z 0 HR Hr H) as (ur & uz & E1 & E2 & _). congruence.
Qed.
(** the Cartesian and the polar routine agree at every point, also on the axis and on the ring *)
Theorem C46_ring_u_is_ring_u_polar : forall G Rr reg r psi z, 0 < Rr -> 0 <= r ->
  exists ur uz,
    ring_u_polar (N := XN) (Fin G) (Fin Rr) (Fin 0) (Fin 0) reg (Fin r, Fin z) = Ok ((Fin ur : XN), (Fin uz : XN)) /\
    ring_u (N := XN) (Fin G) (Fin Rr) (Fin 0) (Fin (r * cos psi), Fin (r * sin psi), Fin z) = xv (ur * cos psi, ur * sin psi, uz).
Proof.
  intros G Rr reg r psi z HR Hr. rewrite ring_u_polar_eps0 by auto. rewrite Rminus_0_r.
  assert (ES : sqrt (r * r + 0 * 0) = r) by (replace (r * r + 0 * 0) with (r * r) by ring; apply sqrt_square; auto).
  assert (EP : r * cos psi * (r * cos psi) + r * sin psi * (r * sin psi) = r * r).
  { pose proof (sin2_cos2 psi) as S. unfold Rsqr in S. replace (r * cos psi * (r * cos psi) + r * sin psi * (r * sin psi)) with (r * r * (sin psi * sin psi + cos psi * cos psi)) by ring. rewrite S. ring. }
  assert (ES2 : sqrt (r * cos psi * (r * cos psi) + r * sin psi * (r * sin psi)) = r) by (rewrite EP; apply sqrt_square; auto).
  assert (D : (near_axis Rr r \/ ~ near_axis Rr r)) by (unfold near_axis; destruct (Rlt_dec r (1/10000000 * Rr)); tauto).
  assert (PX : r * cos (Ratan2 (r * sin psi) (r * cos psi)) = r * cos psi /\ r * sin (Ratan2 (r * sin psi) (r * cos psi)) = r * sin psi).
  { pose proof (Ratan2_polar_all (r * sin psi) (r * cos psi)) as K. rewrite ES2 in K. exact K. }
  assert (Z0 : neqb XN (Fin 0) (Fin 0) = true) by (apply (Reqb_true 0 0); reflexivity).
  destruct (near_ring_b Rr r z) as [NR|NR].
  - exists 0, (G / (4 * Rr)). rewrite pol_ring by (auto; rewrite ES; auto). unfold ring_u. rewrite pol_ring by (auto; rewrite ES2; auto).
    rewrite Z0. split; [reflexivity|]. cbn. unfold xv, px, py, pz. cbn. rewrite !Rmult_0_l. reflexivity.
  - destruct D as [NA|NA].
    + exists 0, (G / (2 * Rr) * (1 / Rpw (1 + z / Rr * (z / Rr)) (3/2))).
      rewrite pol_axis by (auto; rewrite ES; auto). unfold ring_u. rewrite pol_axis by (auto; rewrite ES2; auto).
      split; [reflexivity|]. cbn. unfold xv, px, py, pz. cbn. rewrite !Rmult_0_l. reflexivity.
    + exists (Wr G Rr r z), (Wz G Rr r z). rewrite pol_reg by (auto; rewrite ES; auto). unfold ring_u. rewrite pol_reg by (auto; rewrite ES2; auto).
      rewrite ES, ES2. split; [reflexivity|]. cbn. unfold xv, px, py, pz. cbn.
      unfold near_axis in NA. assert (Hr' : r <> 0) by lra. destruct PX as [P1 P2].
      apply Rmult_eq_reg_l in P1; auto. apply Rmult_eq_reg_l in P2; auto. rewrite P1, P2. reflexivity.
Qed.

(** ** C47 *)
(** value of [ring_u], Gamma = 1 *)
Definition ring1 (Rr eps x y z : R) : R * R :=
  let r := sqrt (x * x + y * y) in
  if Rltb (Rabs (r - Rr)) (1/10000000 * Rr) && Rltb (Rabs z) (1/10000000) then
    (0, if Reqb eps 0 then / (4 * Rr) else / (4 * PI * Rr) * (ln (8 * Rr / eps) - 1/4))
  else if Rltb r (1/10000000 * Rr) then (0, / (2 * Rr) * (1 / Rpw (1 + z / Rr * (z / Rr)) (3/2)))
  else (Wr 1 Rr r z, Wz 1 Rr r z).
Lemma ring_u_pol_val G Rr eps x y z : 0 < Rr -> 0 <= eps ->
  ring_u_pol (N := XN) (Fin G) (Fin Rr) (Fin eps) (Fin x, Fin y, Fin z) =
  (Fin (G * fst (ring1 Rr eps x y z)), Fin (G * snd (ring1 Rr eps x y z))).
Proof.
  intros HR He. unfold ring1. set (r := sqrt (x * x + y * y)). pose proof PI_RGT_0 as HP.
  destruct (near_ring_b Rr r z) as [NR|NR].
  - rewrite pol_ring by auto. change (neqb XN (Fin eps) (Fin 0)) with (Reqb eps 0).
    destruct (Reqb_spec eps 0) as [E|E]; cbn [fst snd].
    + f_equal; f_equal; field; lra.
    + xn. rewrite xdiv_fin by auto. rewrite xlog_fin by (apply Rdiv_lt_0_compat; lra). xn. f_equal; f_equal; [ring|]. field. repeat split; lra.
  - destruct (Rltb_spec r (1/10000000 * Rr)) as [NA|NA]; cbn [fst snd].
    + rewrite pol_axis by auto. pose proof (Rsq_pos (z / Rr)) as Q. pose proof (Rpw_gt0 (1 + z / Rr * (z / Rr)) (3/2) ltac:(lra)).
      f_equal; f_equal; field; lra.
    + rewrite pol_reg by auto. fold r. f_equal; f_equal; unfold Wr, Wz; field; lra.
Qed.
Definition ringC (Rr eps x y z : R) : R3 :=
  let u := ring1 Rr eps x y z in (fst u * cos (Ratan2 y x), fst u * sin (Ratan2 y x), snd u).
Lemma ring_u_val G Rr eps x y z : 0 < Rr -> 0 <= eps ->
  ring_u (N := XN) (Fin G) (Fin Rr) (Fin eps) (Fin x, Fin y, Fin z) = xv (scal3 G (ringC Rr eps x y z)).
Proof.
  intros HR He. unfold ring_u. rewrite ring_u_pol_val by auto. cbn. unfold xv, scal3, ringC, px, py, pz. cbn. rewrite !Rmult_assoc. reflexivity.
Qed.
(** finite at every point and linear in the circulation: one real vector [v] serves all circulations *)
Theorem C47_ring_u_finite_and_linear : forall Rr eps x y z, 0 < Rr -> 0 <= eps ->
  exists v : R3, forall G, ring_u (N := XN) (Fin G) (Fin Rr) (Fin eps) (Fin x, Fin y, Fin z) = xv (scal3 G v).
Proof. intros. eexists. intros G. apply ring_u_val; auto. Qed.
Definition C87_full : Prop := forall Rr eps reg z0 r z, 0 < Rr -> 0 <= eps -> 0 <= r -> (reg = "Saffman" \/ reg = "linear")%string ->
  exists a b : R, forall G, ring_u_polar (N := XN) (Fin G) (Fin Rr) (Fin z0) (Fin eps) reg (Fin r, Fin z) = Ok ((Fin (G * a) : XN), (Fin (G * b) : XN)).
Theorem C47_ring_u_polar : forall Rr eps reg z0 r z, 0 < Rr -> 0 <= eps -> 0 <= r -> (eps = 0 \/ reg = "Saffman"%string) ->
  exists a b : R, forall G, ring_u_polar (N := XN) (Fin G) (Fin Rr) (Fin z0) (Fin eps) reg (Fin r, Fin z) = Ok ((Fin (G * a) : XN), (Fin (G * b) : XN)).
Proof.
  intros Rr eps reg z0 r z HR He Hr Hm. pose proof PI_RGT_0 as HP.
  destruct (Req_dec eps 0) as [E|E].
  - rewrite E. exists (fst (ring1 Rr 0 r 0 (z - z0))), (snd (ring1 Rr 0 r 0 (z - z0))). intros G. rewrite ring_u_polar_eps0 by auto.
    rewrite ring_u_pol_val by (auto; lra). reflexivity.
  - destruct Hm as [Hm|Hm]; [contradiction|]. rewrite Hm. set (zz := z - z0).
    set (rho := sqrt ((r - Rr) * (r - Rr) + zz * zz)).
    exists (if Rltb rho (eps / 2) then 0 else if Rltb r (1/10000000 * Rr) then 0 else Wr 1 Rr r zz),
           (if Rltb rho (eps / 2) then / (4 * PI * Rr) * (ln (16 * Rr / eps) - 1/4) else if Rltb r (1/10000000 * Rr) then / (2 * Rr) * (1 / Rpw (1 + zz / Rr * (zz / Rr)) (3/2)) else Wz 1 Rr r zz).
    intros G. unfold ring_u_polar. change (nsub XN (Fin z) (Fin z0)) with (Fin zz : XN). unfold ring_near.
    replace (neqb XN (Fin eps) (nZ XN 0)) with false by (symmetry; apply (Reqb_false eps 0); auto).
    cbn [String.eqb Ascii.eqb Bool.eqb]. unfold bind.
    pose proof (Rsq_pos (r - Rr)). pose proof (Rsq_pos zz).
    assert (ERHO : nsqrt XN (nadd XN (sq (nsub XN (Fin r) (Fin Rr))) (sq (Fin zz : XN))) = Fin rho) by (xn; rewrite xsqrt_fin by lra; reflexivity).
    rewrite ERHO. clear ERHO.
    assert (E2 : nlt XN (Fin rho) (ndiv XN (Fin eps) (nZ XN 2)) = Rltb rho (eps / 2)) by (xn; rewrite xdiv_fin by lra; reflexivity). rewrite E2. clear E2.
    change (nlt XN (Fin r) (nmul XN EPSR (Fin Rr))) with (Rltb r (1/10000000 * Rr)).
    f_equal. destruct (Rltb_spec rho (eps / 2)) as [NR|NR].
    + xn. rewrite (xdiv_fin (16 * Rr)) by auto. rewrite xlog_fin by (apply Rdiv_lt_0_compat; lra). xn.
      assert (4 * PI * Rr <> 0) by (apply Rgt_not_eq, Rmult_lt_0_compat; lra). rewrite xdiv_fin by auto. xn. f_equal; f_equal; [ring|]. field. repeat split; lra.
    + destruct (Rltb_spec r (1/10000000 * Rr)) as [NA|NA].
      * pose proof (Rsq_pos (zz / Rr)) as Q. assert (H3 : 0 < 1 + zz / Rr * (zz / Rr)) by lra.
        pose proof (Rpw_gt0 _ (3/2) H3). xn. rewrite !xdiv_fin by lra. xn. rewrite xpow_fin by auto. rewrite xdiv_fin by lra. xn. f_equal; f_equal; [ring|field; split; lra].
      * assert (OFF : 0 < (r - Rr) * (r - Rr) + zz * zz).
        { assert (0 < rho) by lra. unfold rho in *. destruct (Rlt_dec 0 ((r - Rr) * (r - Rr) + zz * zz)); auto. rewrite sqrt_neg_0 in H1; lra. }
        rewrite singular_X by (auto; lra).
        assert (E1 : Wr G Rr r zz = G * Wr 1 Rr r zz) by (unfold Wr; field; lra).
        assert (E2 : Wz G Rr r zz = G * Wz 1 Rr r zz) by (unfold Wz; field; lra). rewrite E1, E2. reflexivity.
Qed.
(** the 'linear' regularisation ignores Gamma and the ring radius: not linear in the circulation,
    and NaN when r0+eps/2 = 1 *)
Theorem C87_linear_refuted : ~ C87_full /\
  (forall G, exists u, ring_u_polar (N := XN) (Fin G) (Fin (1/2)) (Fin 0) (Fin 1) "linear" (Fin (1/2), Fin 0) = Ok ((u : XN), (NaN : XN))) /\
  (exists b, b <> 0 /\ forall G, ring_u_polar (N := XN) (Fin G) (Fin (1/4)) (Fin 0) (Fin (1/4)) "linear" (Fin (1/4), Fin 0) = Ok ((Fin 0 : XN), (Fin b : XN))).
Proof.
  assert (K1 : forall G, exists u, ring_u_polar (N := XN) (Fin G) (Fin (1/2)) (Fin 0) (Fin 1) "linear" (Fin (1/2), Fin 0) = Ok ((u : XN), (NaN : XN))).
  { intros G. exists (Fin 0). unfold ring_u_polar, ring_near.
    replace (neqb XN (Fin 1) (nZ XN 0)) with false by (symmetry; apply (Reqb_false 1 0); lra).
    cbn [String.eqb Ascii.eqb Bool.eqb]. unfold bind.
    assert (ERHO : nsqrt XN (nadd XN (sq (nsub XN (Fin (1/2)) (Fin (1/2)))) (sq (nsub XN (Fin 0) (Fin 0)))) = Fin 0).
    { xn. rewrite xsqrt_fin by lra. f_equal. rewrite <- sqrt_0. f_equal. ring. }
    rewrite ERHO.
    assert (E2 : nlt XN (Fin 0) (ndiv XN (Fin 1) (nZ XN 2)) = true) by (xn; rewrite xdiv_fin by lra; apply Rltb_true; lra). rewrite E2.
    assert (EP : snd (ring_u_polar_singular (N := XN) (nopp XN (nZ XN 1)) (nZ XN 1) (nadd XN (Fin (1/2)) (ndiv XN (Fin 1) (nZ XN 2)), nZ XN 0)) = NaN).
    { assert (EA : nadd XN (Fin (1/2)) (ndiv XN (Fin 1) (nZ XN 2)) = Fin 1) by (xn; rewrite xdiv_fin by lra; xn; f_equal; field).
      rewrite EA. unfold ring_u_polar_singular. xn. 
      rewrite (xdiv_fin (4 * 1 * 1)) by lra. replace (4 * 1 * 1 / ((1 + 1) * (1 + 1) + 0 * 0)) with 1 by field.
      cbn [snd]. 
      assert (A : xdiv (Fin (2 - 1)) (Fin (2 - 2 * 1)) = PInf).
      { cbn. replace (2 - 2 * 1) with 0 by ring. rewrite (proj2 (Reqb_true 0 0)) by auto. unfold xinf_mul. rewrite (proj2 (Rltb_true 0 (2-1))) by lra. reflexivity. }
      assert (B : xdiv (Fin (1 * 1)) (Fin (2 * 1 * (1 - 1))) = PInf).
      { cbn. replace (2 * 1 * (1 - 1)) with 0 by ring. rewrite (proj2 (Reqb_true 0 0)) by auto. unfold xinf_mul. rewrite (proj2 (Rltb_true 0 (1*1))) by lra. reflexivity. }
      rewrite A, B. cbn [xsub xadd xopp xmul]. 
      match goal with |- xmul ?a NaN = NaN => destruct a; reflexivity end. }
    rewrite EP. reflexivity. }
  assert (K2 : exists b, b <> 0 /\ forall G, ring_u_polar (N := XN) (Fin G) (Fin (1/4)) (Fin 0) (Fin (1/4)) "linear" (Fin (1/4), Fin 0) = Ok ((Fin 0 : XN), (Fin b : XN))).
  { exists (Wz (-1) 1 (3/8) 0). split.
    - assert (OFF : 0 < (3/8 - 1) * (3/8 - 1) + 0 * 0) by lra.
      destruct (lift_facts (3/8) 1 0 OFF ltac:(lra) ltac:(lra)) as (HA & Hm & Hm0 & HS & SS). pose proof PI_RGT_0 as HP.
      pose proof (Kell_pos _ Hm) as KP. pose proof (Eell_pos _ Hm) as EP.
      assert (EA : a2 (3/8) 1 0 = 121/64) by (unfold a2; field).
      assert (Em : mm (3/8) 1 0 = 96/121) by (unfold mm; rewrite EA; field).
      assert (ES : sqrt (121/64) = 11/8) by (replace (121/64) with (11/8*(11/8)) by field; apply sqrt_square; lra).
      unfold Wz, Jc. destruct (Req_EM_T (3/8) 0); [lra|]. unfold II1, II2. rewrite EA, ES, Em in *.
      set (K := Kell (96/121)) in *. set (Ev := Eell (96/121)) in *.
      apply Rlt_not_eq.
      apply (Rmult_lt_reg_l (4 * PI)); [lra|].
      match goal with |- ?a < _ => replace a with (- (16/11 * K + 16/5 * Ev)) by (field; lra) end. lra.
    - intros G. unfold ring_u_polar, ring_near.
      replace (neqb XN (Fin (1/4)) (nZ XN 0)) with false by (symmetry; apply (Reqb_false (1/4) 0); lra).
      cbn [String.eqb Ascii.eqb Bool.eqb]. unfold bind.
      assert (ERHO : nsqrt XN (nadd XN (sq (nsub XN (Fin (1/4)) (Fin (1/4)))) (sq (nsub XN (Fin 0) (Fin 0)))) = Fin 0).
      { xn. rewrite xsqrt_fin by lra. f_equal. rewrite <- sqrt_0. f_equal. ring. }
      rewrite ERHO.
      assert (E2 : nlt XN (Fin 0) (ndiv XN (Fin (1/4)) (nZ XN 2)) = true) by (xn; rewrite xdiv_fin by lra; apply Rltb_true; lra). rewrite E2.
      assert (EP : nadd XN (Fin (1/4)) (ndiv XN (Fin (1/4)) (nZ XN 2)) = Fin (3/8)) by (xn; rewrite xdiv_fin by lra; xn; f_equal; field).
      assert (EM : nsub XN (Fin (1/4)) (ndiv XN (Fin (1/4)) (nZ XN 2)) = Fin (1/8)) by (xn; rewrite xdiv_fin by lra; xn; f_equal; field).
      rewrite EP, EM. change (nopp XN (nZ XN 1)) with (Fin (-1) : XN). change (nZ XN 1) with (Fin 1 : XN). change (nZ XN 0) with (Fin 0 : XN).
      rewrite !singular_X by lra. cbn [snd]. xn. rewrite !xdiv_fin by lra. xn. f_equal. f_equal. f_equal. field. }
  split; auto. intros H. destruct (H (1/2) 1 "linear"%string 0 (1/2) 0) as (a & b & E); [lra|lra|lra|auto|].
  destruct (K1 1) as (u & E'). specialize (E 1). rewrite E' in E. injection E. discriminate.
Qed.

(** ** C48 *)
Lemma W_even G Rr r z : Wr G Rr r (- z) = - Wr G Rr r z /\ Wz G Rr r (- z) = Wz G Rr r z.
Proof.
  assert (EA : a2 r Rr (- z) = a2 r Rr z) by (unfold a2; ring).
  assert (E1 : II1 r Rr (- z) = II1 r Rr z) by (unfold II1, mm; rewrite EA; reflexivity).
  assert (E2 : II2 r Rr (- z) = II2 r Rr z) by (unfold II2, mm; rewrite EA; reflexivity).
  assert (EJ : Jc r Rr (- z) = Jc r Rr z) by (unfold Jc; destruct (Req_EM_T r 0); auto; rewrite E1, E2; f_equal; ring).
  unfold Wr, Wz. rewrite EJ, E2. split; ring.
Qed.
Lemma ring1_even Rr eps x y z : ring1 Rr eps x y (- z) = (- fst (ring1 Rr eps x y z), snd (ring1 Rr eps x y z)).
Proof.
  unfold ring1. rewrite Rabs_Ropp. destruct (_ && _)%bool; [cbn; f_equal; ring|]. destruct (Rltb _ _); cbn.
  - f_equal; [ring|]. replace (- z / Rr * (- z / Rr)) with (z / Rr * (z / Rr)) by (unfold Rdiv; ring). reflexivity.
  - destruct (W_even 1 Rr (sqrt (x * x + y * y)) z) as [E1 E2]. rewrite E1, E2. reflexivity.
Qed.
Theorem C48_even_odd : forall G Rr eps x y z, 0 < Rr -> 0 <= eps ->
  exists u1 u2 u3,
    ring_u (N := XN) (Fin G) (Fin Rr) (Fin eps) (Fin x, Fin y, Fin z) = xv (u1, u2, u3) /\
    ring_u (N := XN) (Fin G) (Fin Rr) (Fin eps) (Fin x, Fin y, Fin (- z)) = xv (- u1, - u2, u3).
Proof.
  intros G Rr eps x y z HR He.
  exists (px (scal3 G (ringC Rr eps x y z))), (py (scal3 G (ringC Rr eps x y z))), (pz (scal3 G (ringC Rr eps x y z))).
  rewrite !ring_u_val by auto. split; [reflexivity|]. unfold xv, ringC, scal3, px, py, pz. rewrite ring1_even. cbn.
  f_equal. f_equal; f_equal; ring.
Qed.
(** rotation about the ring's axis *)
Definition rotz (phi : R) (v : R3) : R3 := (cos phi * px v - sin phi * py v, sin phi * px v + cos phi * py v, pz v).
Theorem C48_axisymmetric : forall G Rr eps x y z phi, 0 < Rr -> 0 <= eps ->
  exists u, ring_u (N := XN) (Fin G) (Fin Rr) (Fin eps) (Fin x, Fin y, Fin z) = xv u /\
    ring_u (N := XN) (Fin G) (Fin Rr) (Fin eps) (xv (rotz phi (x, y, z))) = xv (rotz phi u).
Proof.
  intros G Rr eps x y z phi HR He. set (x' := cos phi * x - sin phi * y). set (y' := sin phi * x + cos phi * y).
  assert (ER : x' * x' + y' * y' = x * x + y * y).
  { unfold x', y'. pose proof (sin2_cos2 phi) as S. unfold Rsqr in S.
    replace ((cos phi * x - sin phi * y) * (cos phi * x - sin phi * y) + (sin phi * x + cos phi * y) * (sin phi * x + cos phi * y))
      with ((sin phi * sin phi + cos phi * cos phi) * (x * x + y * y)) by ring. rewrite S. ring. }
  exists (scal3 G (ringC Rr eps x y z)). split; [apply ring_u_val; auto|].
  change (xv (rotz phi (x, y, z))) with ((Fin x' : XN), (Fin y' : XN), (Fin z : XN)). rewrite ring_u_val by auto. f_equal.
  assert (E1 : ring1 Rr eps x' y' z = ring1 Rr eps x y z) by (unfold ring1; rewrite ER; reflexivity).
  unfold ringC. rewrite E1. set (u := ring1 Rr eps x y z).
  destruct (Ratan2_polar_all y x) as [PX PY]. destruct (Ratan2_polar_all y' x') as [PX' PY']. rewrite ER in PX', PY'.
  destruct (Req_dec (sqrt (x * x + y * y)) 0) as [Z|Z].
  - assert (U0 : fst u = 0).
    { unfold u, ring1. rewrite Z. destruct (near_ring_b Rr 0 z) as [N|N]; [reflexivity|].
      rewrite (proj2 (Rltb_true 0 (1/10000000 * Rr))) by lra. reflexivity. }
    rewrite U0. unfold rotz, scal3, px, py, pz. cbn. tup; ring.
  - assert (C' : cos (Ratan2 y' x') = cos phi * cos (Ratan2 y x) - sin phi * sin (Ratan2 y x)).
    { apply (Rmult_eq_reg_l (sqrt (x * x + y * y))); auto. rewrite PX'. unfold x'.
      transitivity (cos phi * (sqrt (x * x + y * y) * cos (Ratan2 y x)) - sin phi * (sqrt (x * x + y * y) * sin (Ratan2 y x))); [rewrite PX, PY; reflexivity|ring]. }
    assert (S' : sin (Ratan2 y' x') = sin phi * cos (Ratan2 y x) + cos phi * sin (Ratan2 y x)).
    { apply (Rmult_eq_reg_l (sqrt (x * x + y * y))); auto. rewrite PY'. unfold y'.
      transitivity (sin phi * (sqrt (x * x + y * y) * cos (Ratan2 y x)) + cos phi * (sqrt (x * x + y * y) * sin (Ratan2 y x))); [rewrite PX, PY; reflexivity|ring]. }
    rewrite C', S'. unfold rotz, scal3, px, py, pz. cbn. tup; ring.
Qed.

Lemma W_scale G Rr r z s : 0 < s -> 0 < Rr -> 0 <= r -> 0 < (r - Rr) * (r - Rr) + z * z ->
  Wr G (s * Rr) (s * r) (s * z) = Wr G Rr r z / s /\ Wz G (s * Rr) (s * r) (s * z) = Wz G Rr r z / s.
Proof.
  intros Hs HR Hr OFF. pose proof PI_RGT_0 as HP. pose proof (a2_pos r Rr z OFF Hr HR) as HA. pose proof (mm_lt r Rr z OFF Hr HR) as Hm.
  assert (HS : 0 < sqrt (a2 r Rr z)) by (apply sqrt_lt_R0; auto). assert (SS : sqrt (a2 r Rr z) * sqrt (a2 r Rr z) = a2 r Rr z) by (apply sqrt_sqrt; lra).
  pose proof (Rsq_lt s ltac:(lra)) as S2.
  assert (EA : a2 (s * r) (s * Rr) (s * z) = s * s * a2 r Rr z) by (unfold a2; ring).
  assert (EQ : sqrt (a2 (s * r) (s * Rr) (s * z)) = s * sqrt (a2 r Rr z)) by (rewrite EA, sqrt_mult, sqrt_square by lra; reflexivity).
  assert (EM : mm (s * r) (s * Rr) (s * z) = mm r Rr z) by (unfold mm; rewrite EA; field; lra).
  assert (E1 : II1 (s * r) (s * Rr) (s * z) = II1 r Rr z / s) by (unfold II1; rewrite EQ, EM; field; lra).
  assert (E2 : II2 (s * r) (s * Rr) (s * z) = II2 r Rr z / (s * s * s)) by (unfold II2; rewrite EQ, EM, EA; field; repeat split; lra).
  assert (EJ : Jc (s * r) (s * Rr) (s * z) = Jc r Rr z / (s * s * s)).
  { unfold Jc. destruct (Req_EM_T r 0) as [Z|Z]; destruct (Req_EM_T (s * r) 0) as [Z'|Z'].
    - unfold Rdiv; ring.
    - rewrite Z in Z'. lra.
    - apply Rmult_integral in Z'. lra.
    - rewrite E1, E2. field. repeat split; lra. }
  unfold Wr, Wz. rewrite EJ, E2. split; field; lra.
Qed.
Definition C48_scaling_full : Prop := forall G Rr x y z s, 0 < Rr -> 0 < s ->
  exists u, ring_u (N := XN) (Fin G) (Fin Rr) (Fin 0) (Fin x, Fin y, Fin z) = xv u /\
    ring_u (N := XN) (Fin G) (Fin (s * Rr)) (Fin 0) (Fin (s * x), Fin (s * y), Fin (s * z)) = xv (scal3 (/ s) u).
(** the core test compares [z] with an absolute length 1e-7: scaling holds unless exactly one of the
    two points falls into the core *)
Theorem C88_scaling_partial : forall G Rr x y z s, 0 < Rr -> 0 < s ->
  (Rabs z < 1/10000000 <-> Rabs (s * z) < 1/10000000) \/ ~ Rabs (sqrt (x * x + y * y) - Rr) < 1/10000000 * Rr ->
  exists u, ring_u (N := XN) (Fin G) (Fin Rr) (Fin 0) (Fin x, Fin y, Fin z) = xv u /\
    ring_u (N := XN) (Fin G) (Fin (s * Rr)) (Fin 0) (Fin (s * x), Fin (s * y), Fin (s * z)) = xv (scal3 (/ s) u).
Proof.
  intros G Rr x y z s HR Hs HN. pose proof (Rsq_lt s ltac:(lra)) as S2. pose proof (rxy x y) as RP. pose proof PI_RGT_0 as HP.
  assert (HRs : 0 < s * Rr) by (apply Rmult_lt_0_compat; auto).
  exists (scal3 G (ringC Rr 0 x y z)). split; [apply ring_u_val; lra|]. rewrite ring_u_val by lra. f_equal.
  set (r := sqrt (x * x + y * y)) in *.
  assert (ER : sqrt (s * x * (s * x) + s * y * (s * y)) = s * r).
  { replace (s * x * (s * x) + s * y * (s * y)) with (s * s * (x * x + y * y)) by ring. rewrite sqrt_mult, sqrt_square by lra. reflexivity. }
  assert (H0 : 0 <= r) by apply sqrt_pos.
  assert (E1 : ring1 (s * Rr) 0 (s * x) (s * y) (s * z) = (fst (ring1 Rr 0 x y z) / s, snd (ring1 Rr 0 x y z) / s)).
  { unfold ring1. rewrite ER. fold r. rewrite (proj2 (Reqb_true 0 0)) by reflexivity.
    assert (T1 : Rltb (Rabs (s * r - s * Rr)) (1/10000000 * (s * Rr)) = Rltb (Rabs (r - Rr)) (1/10000000 * Rr)).
    { replace (s * r - s * Rr) with (s * (r - Rr)) by ring. rewrite Rabs_mult, (Rabs_right s) by lra.
      replace (1/10000000 * (s * Rr)) with (s * (1/10000000 * Rr)) by ring.
      destruct (Rltb_spec (Rabs (r - Rr)) (1/10000000 * Rr)).
      - apply Rltb_true. apply Rmult_lt_compat_l; auto.
      - apply Rltb_false. apply Rmult_le_compat_l; lra. }
    assert (T2 : Rltb (s * r) (1/10000000 * (s * Rr)) = Rltb r (1/10000000 * Rr)).
    { replace (1/10000000 * (s * Rr)) with (s * (1/10000000 * Rr)) by ring.
      destruct (Rltb_spec r (1/10000000 * Rr)).
      - apply Rltb_true. apply Rmult_lt_compat_l; auto.
      - apply Rltb_false. apply Rmult_le_compat_l; lra. }
    rewrite T1, T2.
    assert (T3 : (Rltb (Rabs (r - Rr)) (1/10000000 * Rr) && Rltb (Rabs (s * z)) (1/10000000) = Rltb (Rabs (r - Rr)) (1/10000000 * Rr) && Rltb (Rabs z) (1/10000000))%bool).
    { destruct HN as [HN|HN].
      - f_equal. destruct (Rltb_spec (Rabs z) (1/10000000)); [apply Rltb_true; tauto|]. apply Rltb_false. apply Rnot_lt_le. tauto.
      - rewrite (proj2 (Rltb_false _ _)) by lra. reflexivity. }
    rewrite T3. destruct (near_ring_b Rr r z) as [NR|NR]; cbn [fst snd].
    - tup; field; lra.
    - destruct (Rltb_spec r (1/10000000 * Rr)) as [NA|NA]; cbn [fst snd].
      + replace (s * z / (s * Rr)) with (z / Rr) by (field; lra). pose proof (Rsq_pos (z / Rr)). pose proof (Rpw_gt0 (1 + z / Rr * (z / Rr)) (3/2) ltac:(lra)).
        tup; field; lra.
      + destruct (W_scale 1 Rr r z s Hs HR H0 (not_near_off _ _ _ HR NR)) as [E1 E2]. rewrite E1, E2. reflexivity. }
  unfold ringC. rewrite E1. cbn [fst snd]. set (u := ring1 Rr 0 x y z).
  destruct (Ratan2_polar_all y x) as [PX PY]. destruct (Ratan2_polar_all (s * y) (s * x)) as [PX' PY']. rewrite ER in PX', PY'. fold r in PX, PY.
  destruct (Req_dec r 0) as [Z|Z].
  - assert (U0 : fst u = 0).
    { unfold u, ring1. fold r. rewrite Z. destruct (near_ring_b Rr 0 z) as [N|N]; [reflexivity|].
      rewrite (proj2 (Rltb_true 0 (1/10000000 * Rr))) by lra. reflexivity. }
    rewrite U0. unfold scal3, px, py, pz. cbn. tup; field; lra.
  - assert (C' : cos (Ratan2 (s * y) (s * x)) = cos (Ratan2 y x)).
    { apply (Rmult_eq_reg_l (s * r)); [|apply Rmult_integral_contrapositive_currified; lra]. rewrite PX', Rmult_assoc, PX. reflexivity. }
    assert (S' : sin (Ratan2 (s * y) (s * x)) = sin (Ratan2 y x)).
    { apply (Rmult_eq_reg_l (s * r)); [|apply Rmult_integral_contrapositive_currified; lra]. rewrite PY', Rmult_assoc, PY. reflexivity. }
    rewrite C', S'. unfold scal3, px, py, pz. cbn. tup; field; lra.
Qed.
(** u_r > 0 above the plane of the ring *)
Lemma Wr_pos G Rr r z : 0 < G -> 0 < Rr -> 0 < r -> 0 < z -> 0 < Wr G Rr r z.
Proof.
  intros HG HR Hr Hz. pose proof PI_RGT_0 as HP.
  assert (OFF : 0 < (r - Rr) * (r - Rr) + z * z) by (pose proof (Rsq_pos (r - Rr)); pose proof (Rsq_lt z ltac:(lra)); lra).
  destruct (lift_facts r Rr z OFF Hr HR) as (HA & Hm & Hm0 & HS & SS).
  unfold Wr, Jc. destruct (Req_EM_T r 0); [lra|]. unfold II1, II2.
  set (A := a2 r Rr z) in *. set (m := mm r Rr z) in *.
  assert (HAz : r * r + Rr * Rr + z * z = A * (1 - m / 2)).
  { unfold A, m, mm. fold A. unfold A, a2 in *. field. lra. }
  rewrite HAz. pose proof (EK_le m Hm) as EK. pose proof (Kell_pos m Hm) as KP.
  set (q := sqrt (1 - m)) in *. assert (Hq : 0 < q) by (apply sqrt_lt_R0; lra). assert (Qq : q * q = 1 - m) by (apply sqrt_sqrt; lra).
  assert (Q1 : q <> 1) by (intros E; rewrite E in Qq; lra).
  assert (B : 0 < (1 - m / 2) * Eell m / (1 - m) - Kell m).
  { rewrite <- Qq. assert (E1 : (1 + q * q) / 2 * (q * Kell m) / (q * q) <= (1 - m / 2) * Eell m / (q * q)).
    { replace (1 - m / 2) with ((1 + q * q) / 2) by (rewrite Qq; field). unfold Rdiv. apply Rmult_le_compat_r; [left; apply Rinv_0_lt_compat, Rmult_lt_0_compat; auto|].
      apply Rmult_le_compat_l; [|exact EK]. pose proof (Rsq_pos q). lra. }
    assert (E2 : Kell m < (1 + q * q) / 2 * (q * Kell m) / (q * q)).
    { replace ((1 + q * q) / 2 * (q * Kell m) / (q * q)) with (Kell m + Kell m * ((1 - q) * (1 - q)) / (2 * q)) by (field; lra).
      assert (0 < Kell m * ((1 - q) * (1 - q)) / (2 * q)); [|lra]. apply Rdiv_lt_0_compat; [|lra]. apply Rmult_lt_0_compat; auto. apply Rsq_lt. lra. }
    lra. }
  assert (C : G * Rr / (4 * PI) * z * ((A * (1 - m / 2) * (4 / (A * sqrt A) * (Eell m / (1 - m))) - 4 / sqrt A * Kell m) / (2 * r * Rr))
      = G * z / (2 * PI * r * sqrt A) * ((1 - m / 2) * Eell m / (1 - m) - Kell m)) by (field; repeat split; lra).
  rewrite C. apply Rmult_lt_0_compat; auto. apply Rdiv_lt_0_compat; [apply Rmult_lt_0_compat; auto|].
  apply Rmult_lt_0_compat; auto. apply Rmult_lt_0_compat; lra.
Qed.
Theorem C88_scaling_refuted : ~ C48_scaling_full.
Proof.
  intros H. destruct (H 1 1 1 0 (2/10000000) (1/4)) as (u & E1 & E2); [lra|lra|].
  assert (ES : sqrt (1 * 1 + 0 * 0) = 1) by (replace (1 * 1 + 0 * 0) with (1 * 1) by ring; apply sqrt_square; lra).
  assert (ES2 : sqrt (1 / 4 * 1 * (1 / 4 * 1) + 1 / 4 * 0 * (1 / 4 * 0)) = 1/4) by (replace (1 / 4 * 1 * (1 / 4 * 1) + 1 / 4 * 0 * (1 / 4 * 0)) with (1/4 * (1/4)) by ring; apply sqrt_square; lra).
  assert (NR : ~ near_ring 1 1 (2/10000000)) by (intros [_ N]; rewrite Rabs_right in N; lra).
  unfold ring_u in E1. rewrite pol_reg in E1; [|lra|rewrite ES; unfold near_axis; lra|rewrite ES; auto].
  unfold ring_u in E2. rewrite pol_ring in E2; [|lra|].
  2: { rewrite ES2. split; [replace (1/4 - 1/4 * 1) with 0 by field; rewrite Rabs_R0; lra|rewrite Rabs_right; lra]. }
  rewrite ES in E1. cbn in E1, E2. destruct u as [[u1 u2] u3]. unfold xv, scal3, px, py, pz in *. cbn in *.
  pose proof (Wr_pos 1 1 1 (2/10000000) ltac:(lra) ltac:(lra) ltac:(lra) ltac:(lra)) as WP.
  assert (A0 : cos (Ratan2 0 1) = 1).
  { rewrite Ratan2_cos by lra. rewrite ES. field. }
  injection E1; intros _ _ X1. injection E2; intros _ _ X2. rewrite A0 in X1. rewrite Rmult_0_l in X2. lra.
Qed.

(** ** C49 *)
Definition C49_full : Prop := forall G Rr eps reg r z, 0 < Rr -> 0 < eps -> 0 <= r -> (reg = "Saffman" \/ reg = "linear")%string ->
  exists ur uz, ring_u_polar (N := XN) (Fin G) (Fin Rr) (Fin 0) (Fin eps) reg (Fin r, Fin z) = Ok ((Fin ur : XN), (Fin uz : XN)) /\
    ring_u_pol (N := XN) (Fin G) (Fin Rr) (Fin eps) (Fin r, Fin 0, Fin z) = ((Fin ur : XN), (Fin uz : XN)).
(** on the ring itself the two routines differ by Gamma ln2/(4 pi R), for every circulation, radius and epsilon *)
Theorem C49_refuted : ~ C49_full /\
  forall G Rr eps, 0 < Rr -> 0 < eps ->
  exists v, ring_u_polar (N := XN) (Fin G) (Fin Rr) (Fin 0) (Fin eps) "Saffman" (Fin Rr, Fin 0) = Ok ((Fin 0 : XN), (Fin (v + G * ln 2 / (4 * PI * Rr)) : XN)) /\
    ring_u_pol (N := XN) (Fin G) (Fin Rr) (Fin eps) (Fin Rr, Fin 0, Fin 0) = ((Fin 0 : XN), (Fin v : XN)).
Proof.
  pose proof PI_RGT_0 as HP.
  assert (K : forall G Rr eps, 0 < Rr -> 0 < eps ->
  exists v, ring_u_polar (N := XN) (Fin G) (Fin Rr) (Fin 0) (Fin eps) "Saffman" (Fin Rr, Fin 0) = Ok ((Fin 0 : XN), (Fin (v + G * ln 2 / (4 * PI * Rr)) : XN)) /\
    ring_u_pol (N := XN) (Fin G) (Fin Rr) (Fin eps) (Fin Rr, Fin 0, Fin 0) = ((Fin 0 : XN), (Fin v : XN))).
  { intros G Rr eps HR He. exists (G * (/ (4 * PI * Rr) * (ln (8 * Rr / eps) - 1/4))).
    assert (4 * PI * Rr <> 0) by (apply Rgt_not_eq, Rmult_lt_0_compat; lra).
    assert (ES : sqrt (Rr * Rr + 0 * 0) = Rr) by (replace (Rr * Rr + 0 * 0) with (Rr * Rr) by ring; apply sqrt_square; lra).
    split.
    - unfold ring_u_polar, ring_near.
      replace (neqb XN (Fin eps) (nZ XN 0)) with false by (symmetry; apply (Reqb_false eps 0); lra).
      cbn [String.eqb Ascii.eqb Bool.eqb]. unfold bind.
      assert (ERHO : nsqrt XN (nadd XN (sq (nsub XN (Fin Rr) (Fin Rr))) (sq (nsub XN (Fin 0) (Fin 0)))) = Fin 0).
      { xn. replace ((Rr - Rr) * (Rr - Rr) + (0 - 0) * (0 - 0)) with 0 by ring. rewrite xsqrt_fin by lra. rewrite sqrt_0. reflexivity. }
      rewrite ERHO.
      assert (E2 : nlt XN (Fin 0) (ndiv XN (Fin eps) (nZ XN 2)) = true) by (xn; rewrite xdiv_fin by lra; apply Rltb_true; lra). rewrite E2.
      xn. rewrite (xdiv_fin (16 * Rr)) by lra. rewrite xlog_fin by (apply Rdiv_lt_0_compat; lra). xn. rewrite xdiv_fin by auto. xn.
      replace (16 * Rr / eps) with (2 * (8 * Rr / eps)) by (field; lra). rewrite ln_mult by (try apply Rdiv_lt_0_compat; lra).
      f_equal. f_equal. f_equal. field. lra.
    - rewrite ring_u_pol_val by lra. unfold ring1. rewrite ES, Rminus_eq_0, Rabs_R0.
      rewrite (proj2 (Rltb_true 0 (1/10000000 * Rr))), (proj2 (Rltb_true 0 (1/10000000))) by lra. cbn [andb].
      rewrite (proj2 (Reqb_false eps 0)) by lra. cbn [fst snd]. rewrite Rmult_0_r. reflexivity. }
  split; auto. intros H. destruct (H 1 1 1 "Saffman"%string 1 0) as (ur & uz & E1 & E2); [lra|lra|lra|auto|].
  destruct (K 1 1 1 ltac:(lra) ltac:(lra)) as (v & F1 & F2). rewrite F1 in E1. rewrite F2 in E2.
  injection E1; intros X1 _. injection E2; intros X2 _.
  assert (0 < 1 * ln 2 / (4 * PI * 1)). { apply Rdiv_lt_0_compat; [|lra]. rewrite Rmult_1_l. rewrite <- ln_1. apply ln_increasing; lra. } lra.
Qed.
(** unknown methods raise (UnboundLocalError) as soon as epsilon <> 0 *)
Theorem C49_unknown_method : forall G Rr z0 eps reg r z, eps <> 0 -> reg <> "Saffman"%string -> reg <> "linear"%string ->
  ring_u_polar (N := XN) (Fin G) (Fin Rr) (Fin z0) (Fin eps) reg (Fin r, Fin z) = Err (EUnboundLocal "Ir").
Proof.
  intros G Rr z0 eps reg r z He H1 H2. unfold ring_u_polar, ring_near.
  replace (neqb XN (Fin eps) (nZ XN 0)) with false by (symmetry; apply (Reqb_false eps 0); auto).
  rewrite (proj2 (String.eqb_neq _ _) H1), (proj2 (String.eqb_neq _ _) H2). reflexivity.
Qed.
(** away from the core (and with Saffman's method) the two routines agree *)
Theorem C49_agree_outside_partial : forall G Rr eps r z, 0 < Rr -> 0 < eps -> 0 <= r ->
  eps / 2 <= sqrt ((r - Rr) * (r - Rr) + z * z) -> ~ (Rabs (r - Rr) < 1/10000000 * Rr /\ Rabs z < 1/10000000) ->
  ring_u_polar (N := XN) (Fin G) (Fin Rr) (Fin 0) (Fin eps) "Saffman" (Fin r, Fin z) =
  Ok (ring_u_pol (N := XN) (Fin G) (Fin Rr) (Fin eps) (Fin r, Fin 0, Fin z)).
Proof.
  intros G Rr eps r z HR He Hr H NR. pose proof PI_RGT_0 as HP.
  assert (ES : sqrt (r * r + 0 * 0) = r) by (replace (r * r + 0 * 0) with (r * r) by ring; apply sqrt_square; lra).
  unfold ring_u_polar, ring_near.
  replace (neqb XN (Fin eps) (nZ XN 0)) with false by (symmetry; apply (Reqb_false eps 0); lra).
  cbn [String.eqb Ascii.eqb Bool.eqb]. unfold bind. change (nsub XN (Fin z) (Fin 0)) with (Fin (z - 0) : XN). rewrite Rminus_0_r.
  pose proof (Rsq_pos (r - Rr)). pose proof (Rsq_pos z).
  assert (ERHO : nsqrt XN (nadd XN (sq (nsub XN (Fin r) (Fin Rr))) (sq (Fin z : XN))) = Fin (sqrt ((r - Rr) * (r - Rr) + z * z))) by (xn; rewrite xsqrt_fin by lra; reflexivity).
  rewrite ERHO.
  assert (E2 : nlt XN (Fin (sqrt ((r - Rr) * (r - Rr) + z * z))) (ndiv XN (Fin eps) (nZ XN 2)) = false) by (xn; rewrite xdiv_fin by lra; apply Rltb_false; lra). rewrite E2.
  f_equal. change (nlt XN (Fin r) (nmul XN EPSR (Fin Rr))) with (Rltb r (1/10000000 * Rr)).
  destruct (Rltb_spec r (1/10000000 * Rr)) as [NA|NA].
  - rewrite pol_axis by (auto; rewrite ES; auto). pose proof (Rsq_pos (z / Rr)) as Q. assert (H2 : 0 < 1 + z / Rr * (z / Rr)) by lra.
    pose proof (Rpw_gt0 _ (3/2) H2). xn. rewrite !xdiv_fin by lra. xn. rewrite xpow_fin by auto. rewrite xdiv_fin by lra. reflexivity.
  - rewrite pol_reg by (auto; rewrite ES; auto). rewrite ES. apply singular_X; auto; [apply not_near_off; auto|lra].
Qed.

(** ** C50 *)
Definition sum3 (l : list R3) : R3 := fold_right add3 (0, 0, 0) l.
Definition xring (q : R * R * R3) : ring (N := XN) := ((Fin (fst (fst q)) : XN), (Fin (snd (fst q)) : XN), xv (snd q)).
(** [vs] lists, ring by ring, the velocity of that ring alone at the point relative to its centre;
    zero-circulation rings are in the list with the velocity [ring_u] gives them, which is 0 *)
Theorem C50_superposition : forall (eps : R) (rings : list (R * R * R3)) (p : R3), 0 <= eps ->
  Forall (fun q => 0 < snd (fst q)) rings ->
  exists vs : list R3,
    Forall2 (fun q v => let '(G, Rr, c) := q in
               ring_u (N := XN) (Fin G) (Fin Rr) (Fin eps) (Fin (px p - px c), Fin (py p - py c), Fin (pz p - pz c)) = xv v /\ (G = 0 -> v = (0, 0, 0))) rings vs /\
    rings_u (N := XN) (Fin eps) (map xring rings) (xv p) = xv (sum3 vs).
Proof.
  intros eps rings p He HR. set (v := fun q : R * R * R3 => scal3 (fst (fst q)) (ringC (snd (fst q)) eps (px p - px (snd q)) (py p - py (snd q)) (pz p - pz (snd q)))).
  exists (map v rings). split.
  - induction HR as [|[[G Rr] c] l H _ IH]; cbn [map]; constructor; auto. split.
    + apply ring_u_val; auto.
    + intros ->. unfold v, scal3, px, py, pz. cbn. tup; ring.
  - unfold rings_u. 
    assert (K : forall acc, fold_left (fun u (rg : ring (N := XN)) => let '(G0, R0, c) := rg in if nlt XN (nZ XN 0) (nabs XN G0) then vadd (N := XN) u (ring_u (N := XN) G0 R0 (Fin eps) (shift c (xv p))) else u)
        (map xring rings) (xv acc) = xv (add3 acc (sum3 (map v rings)))).
    { clear - HR He. induction HR as [|[[G Rr] c] l H _ IH]; intros acc; cbn [map fold_left].
      - destruct acc as [[a b] d]. unfold sum3, xv, add3, px, py, pz. cbn. rewrite !Rplus_0_r. reflexivity.
      - change (xring (G, Rr, c)) with ((Fin G : XN), (Fin Rr : XN), xv c). cbn iota beta.
        assert (E : (if nlt XN (nZ XN 0) (nabs XN (Fin G)) then vadd (N := XN) (xv acc) (ring_u (N := XN) (Fin G) (Fin Rr) (Fin eps) (shift (xv c) (xv p))) else xv acc) = xv (add3 acc (v (G, Rr, c)))).
        { change (shift (xv c) (xv p)) with ((Fin (px p - px c) : XN), (Fin (py p - py c) : XN), (Fin (pz p - pz c) : XN)).
          rewrite ring_u_val by auto.
          change (nlt XN (nZ XN 0) (nabs XN (Fin G))) with (Rltb 0 (Rabs G)). destruct (Rltb_spec 0 (Rabs G)) as [P|P].
          - reflexivity.
          - assert (G = 0). { destruct (Req_dec G 0); auto. pose proof (Rabs_pos_lt G H0). lra. }
            subst G. unfold v, scal3, add3, xv, px, py, pz. cbn. rewrite !Rmult_0_l, !Rplus_0_r. reflexivity. }
        rewrite E, IH. f_equal. unfold sum3. cbn [map fold_right]. set (S := fold_right _ _ _). unfold add3, px, py, pz. cbn. tup; ring. }
    specialize (K (0, 0, 0)). change (xv (0,0,0)) with ((nZ XN 0 : XN), (nZ XN 0 : XN), (nZ XN 0 : XN)) in K.
    etransitivity; [exact K|]. f_equal. set (S := sum3 _). destruct S as [[a b] d]. unfold add3, px, py, pz. cbn. tup; ring.
Qed.
Example C50_nonvacuous : Forall (fun q : R * R * R3 => 0 < snd (fst q)) [(1, 2, (0, 0, 0)); (0, 1, (1, 1, 1))].
Proof. repeat constructor; cbn; lra. Qed.
