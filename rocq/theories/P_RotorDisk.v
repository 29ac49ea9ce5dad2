(** * C123: the skewed cylinder on the rotor disk and in the far wake *)
From Coquelicot Require Import Coquelicot.
From Coq Require Import ZArith List Bool Arith Lia String Reals Lra Psatz.
From Verif Require Import Num NumR NumX M_Elliptic M_Line M_Cylinder M_Ring M_Doublet M_Skewed L_List L_X L_Angles L_Built Spec SpecBS L_Calc L_Ell L_Cyl P_Line P_Ring P_Doublet P_Skewed P_Cylinder P_Cylinder2 P_Cylinder3 P_Longi P_Converge P_Potential L_Ellipse.
Import ListNotations.
Local Open Scope R_scope.
Local Notation len := List.length.

(** ** Specification *)
(** [u] is the Biot-Savart velocity at [p] of the skewed semi-infinite sheet, and it is what the code's routine (given
    Cartesian points) tends to as the number of points on the circumference grows *)
Definition skewed_velocity (g Rr m : R) (p u : R3) : Prop :=
  sheet_velocity g Rr m p u /\
  exists V : nat -> R3, (forall n, (2 <= n)%nat -> svc_tang_u (N := XN) (Fin g) (Fin Rr) (Fin m) n false (xv p) = xv (V n)) /\ tends3 V u.
(** the tube: the wake prolonged on both sides of the rotor *)
Definition in_tube (Rr m x y z : R) : Prop := (x - m * z) * (x - m * z) + y * y < Rr * Rr.

(** ** Proofs *)
Lemma polar_eq p : p = (rho p * cos (azim p), rho p * sin (azim p), pz p).
Proof. destruct (azim_polar p) as [P1 P2]. destruct p as [[x y] z]; unfold px, py, pz in *; cbn [fst snd] in *; congruence. Qed.
Definition SV (g Rr m : R) (p : R3) : R3 :=
  (RInt (fun th => px (row_u g Rr m th p)) 0 (2 * PI), RInt (fun th => py (row_u g Rr m th p)) 0 (2 * PI), RInt (fun th => pz (row_u g Rr m th p)) 0 (2 * PI)).
Lemma rowc g Rr m p : off_sheet Rr m p -> each3 (fun c => forall x, continuous (fun th => c (row_u g Rr m th p)) x).
Proof. intros OFF. rewrite (polar_eq p) in *. apply row_cont. exact OFF. Qed.
Lemma SV_ok g Rr m p : off_sheet Rr m p -> skewed_velocity g Rr m p (SV g Rr m p).
Proof.
  intros OFF. destruct (rowc g Rr m p OFF) as (C1 & C2 & C3).
  assert (S : sheet_velocity g Rr m p (SV g Rr m p)).
  { exists (fun th => row_u g Rr m th p). split; [intros th; apply row_velocity; intros s Hs; apply OFF; auto|]. split; [|split]; [refine (cont_is_RInt _ _ _ C1)|refine (cont_is_RInt _ _ _ C2)|refine (cont_is_RInt _ _ _ C3)]. }
  split; auto. destruct (C82_tangential_converges g Rr m (rho p) (azim p) (pz p) ltac:(rewrite <- polar_eq; exact OFF)) as (u & V & W & Hu & HV & _ & TV & _).
  rewrite <- polar_eq in Hu. rewrite (sheet_unique _ _ _ _ _ _ Hu S) in TV. exists V. split; auto. intros n Hn. unfold svc_tang_u. rewrite to_polar_X. apply HV. exact Hn.
Qed.
Lemma SV_unique g Rr m p u : off_sheet Rr m p -> skewed_velocity g Rr m p u -> u = SV g Rr m p.
Proof. intros OFF [H _]. apply (sheet_unique g Rr m p); auto. apply SV_ok; auto. Qed.
Lemma off_ne Rr m x y z : (x - m * z) * (x - m * z) + y * y <> Rr * Rr -> off_sheet Rr m (x, y, z).
Proof.
  intros H th s _ E. injection E as E1 E2 E3. apply H. rewrite E1, E2, <- E3. pose proof (sin2_cos2 th) as SC. unfold Rsqr in SC.
  replace ((Rr * cos th + m * z - m * z) * (Rr * cos th + m * z - m * z) + Rr * sin th * (Rr * sin th)) with (Rr * Rr * (sin th * sin th + cos th * cos th)) by ring. rewrite SC. ring.
Qed.
Lemma off_in Rr m x y z : in_tube Rr m x y z -> off_sheet Rr m (x, y, z).
Proof. unfold in_tube. intros H. apply off_ne. lra. Qed.
Lemma in_opp Rr m x y z : in_tube Rr m x y z -> in_tube Rr m (- x) (- y) (- z).
Proof. unfold in_tube. intros H. replace ((- x - m * - z) * (- x - m * - z) + - y * - y) with ((x - m * z) * (x - m * z) + y * y) by ring. exact H. Qed.
(** the rows seen from two opposite points *)
Lemma rows_sum g Rr m x y z th : 0 < Rr -> off_sheet Rr m (x, y, z) -> off_sheet Rr m (- x, - y, - z) ->
  let c := sqrt (m * m + 1) in let dX := Rr * cos th - (x - m * z) in let dy := Rr * sin th - y in let D := dX * dX + c * c * (dy * dy) in
  D <> 0 /\
  px (row_u g Rr m th (x, y, z)) + px (row_u g Rr m (th + PI) (- x, - y, - z)) = g * Rr * m / (2 * PI) * (cos th * dX * / D) /\
  py (row_u g Rr m th (x, y, z)) + py (row_u g Rr m (th + PI) (- x, - y, - z)) = g * Rr * m / (2 * PI) * (sin th * dX * / D) /\
  pz (row_u g Rr m th (x, y, z)) + pz (row_u g Rr m (th + PI) (- x, - y, - z)) = g * Rr / (2 * PI) * ((cos th * dX + c * c * (sin th * dy)) * / D).
Proof.
  intros hR OFF OFF'. cbv zeta. destruct (c_pos m) as [Hc C2]. set (c := sqrt (m * m + 1)) in *.
  set (w := sub3 (x, y, z) (Rr * cos th, Rr * sin th, 0)). set (w' := sub3 (- x, - y, - z) (Rr * cos (th + PI), Rr * sin (th + PI), 0)).
  assert (EW : w = (x - Rr * cos th, y - Rr * sin th, z)) by (unfold w, sub3, px, py, pz; cbn [fst snd]; apply tri; ring).
  assert (EW' : w' = (- (x - Rr * cos th), - (y - Rr * sin th), - z)) by (unfold w', sub3, px, py, pz; cbn [fst snd]; rewrite neg_cos, neg_sin; apply tri; ring).
  assert (O1 : ~ (px w = m * pz w /\ py w = 0 /\ 0 <= pz w)).
  { rewrite EW. unfold px, py, pz. cbn [fst snd]. intros (A & B & C). apply (OFF th z); [lra|]. apply tri; lra. }
  assert (O2 : ~ (px w' = m * pz w' /\ py w' = 0 /\ 0 <= pz w')).
  { rewrite EW'. unfold px, py, pz. cbn [fst snd]. intros (A & B & C). apply (OFF' (th + PI) (- z)); [lra|]. rewrite neg_cos, neg_sin. apply tri; lra. }
  pose proof (off_line m (px w) (py w) (pz w) O1) as [Ha Hb]. pose proof (off_line m (px w') (py w') (pz w') O2) as [Ha' Hb'].
  replace (px w, py w, pz w) with w in Ha, Hb by (destruct w as [[? ?] ?]; reflexivity). replace (px w', py w', pz w') with w' in Ha', Hb' by (destruct w' as [[? ?] ?]; reflexivity).
  assert (EA : length3 w' = length3 w) by (unfold length3; f_equal; rewrite EW, EW'; unfold inner, px, py, pz; cbn [fst snd]; ring).
  assert (EB : m * px w' + pz w' = - (m * px w + pz w)) by (rewrite EW, EW'; unfold px, py, pz; cbn [fst snd]; ring).
  unfold row_u. fold w. fold w'. fold c. rewrite EA, EB in *. fold c in Hb, Hb'. 
  assert (AA : length3 w * length3 w = (x - Rr * cos th) * (x - Rr * cos th) + (y - Rr * sin th) * (y - Rr * sin th) + z * z) by (rewrite length3_sq, EW; unfold inner, px, py, pz; cbn [fst snd]; ring).
  assert (BB : m * px w + pz w = m * (x - Rr * cos th) + z) by (rewrite EW; reflexivity).
  set (a := length3 w) in *. set (b := m * px w + pz w) in *. clearbody a b c. clear EA EB EW EW' O1 O2 w w' OFF OFF' Ha'.
  assert (DE : (Rr * cos th - (x - m * z)) * (Rr * cos th - (x - m * z)) + c * c * ((Rr * sin th - y) * (Rr * sin th - y)) = (a * c - b) * (a * c + b)).
  { replace ((a * c - b) * (a * c + b)) with (a * a * (c * c) - b * b) by ring. rewrite AA, BB, C2. ring. }
  set (D := (Rr * cos th - (x - m * z)) * (Rr * cos th - (x - m * z)) + c * c * ((Rr * sin th - y) * (Rr * sin th - y))) in *.
  assert (D0 : D <> 0) by (rewrite DE; apply Rmult_integral_contrapositive_currified; lra).
  pose proof PI_RGT_0. pose proof (sin2_cos2 th) as SC. unfold Rsqr in SC. unfold px, py, pz. cbn [fst snd]. rewrite neg_cos, neg_sin.
  assert (G0 : 1 / (a * (a * c - b)) + 1 / (a * (a * c - - b)) = 2 * c / D) by (rewrite DE; field; repeat split; lra).
  assert (G1 : 1 / (c * (a * c - b)) - 1 / (c * (a * c - - b)) = 2 * b / c / D) by (rewrite DE; field; repeat split; lra).
  set (i0 := 1 / (a * (a * c - b))) in *. set (i0' := 1 / (a * (a * c - - b))) in *. set (i1 := 1 / (c * (a * c - b))) in *. set (i1' := 1 / (c * (a * c - - b))) in *.
  assert (K1 : forall q, q * c * (2 * c / D) + - q * (2 * b / c / D) * c = 2 * q * (c * c - b) / D) by (intros; field; lra).
  split; [exact D0|]. split; [|split].
  - transitivity (g * c * Rr / (4 * PI) * cos th * (z * (i0 + i0') - (i1 - i1'))); [ring|]. rewrite G0, G1.
    transitivity (g * Rr / (2 * PI) * cos th * ((z * (c * c) - b) / D)); [field; repeat split; lra|]. replace (z * (c * c) - b) with (m * (Rr * cos th - (x - m * z))) by (rewrite BB, C2; ring). field. split; lra.
  - transitivity (g * c * Rr / (4 * PI) * sin th * (z * (i0 + i0') - (i1 - i1'))); [ring|]. rewrite G0, G1.
    transitivity (g * Rr / (2 * PI) * sin th * ((z * (c * c) - b) / D)); [field; repeat split; lra|]. replace (z * (c * c) - b) with (m * (Rr * cos th - (x - m * z))) by (rewrite BB, C2; ring). field. split; lra.
  - transitivity (g * c * Rr / (4 * PI) * ((Rr - x * cos th - y * sin th) * (i0 + i0') + m * cos th * (i1 - i1'))); [ring|]. rewrite G0, G1.
    transitivity (g * Rr / (2 * PI) * ((c * c * (Rr - x * cos th - y * sin th) + m * cos th * b) / D)); [field; repeat split; lra|].
    replace (c * c * (Rr - x * cos th - y * sin th) + m * cos th * b) with (cos th * (Rr * cos th - (x - m * z)) + c * c * (sin th * (Rr * sin th - y))); [field; split; lra|].
    replace (Rr - x * cos th - y * sin th) with (Rr * (sin th * sin th + cos th * cos th) - x * cos th - y * sin th) by (rewrite SC; ring). rewrite BB, C2. ring.
Qed.
Lemma half_turn (f : R -> R) : (forall x, continuous f x) -> (forall x, f (x + 2 * PI) = f x) -> is_RInt (fun th => f (th + PI)) 0 (2 * PI) (RInt f 0 (2 * PI)).
Proof.
  intros Hc Hp. rewrite <- (periodic_start f (2 * PI) PI Hc Hp).
  apply (is_RInt_ext (fun th => scal 1 (f (1 * th + PI)))).
  - intros t _. change (1 * f (1 * t + PI) = f (t + PI)). rewrite !Rmult_1_l. reflexivity.
  - apply (is_RInt_comp_lin f 1 PI 0 (2 * PI)). replace (1 * 0 + PI) with PI by ring. replace (1 * (2 * PI) + PI) with (PI + 2 * PI) by ring. apply cont_is_RInt. auto.
Qed.
Lemma c_ge1 m : 1 <= sqrt (m * m + 1).
Proof. rewrite <- sqrt_1 at 1. apply sqrt_le_1_alt. pose proof (Rsq_pos m). lra. Qed.
Lemma row_integrals Rr m X y : 0 < Rr -> X * X + y * y < Rr * Rr -> let c := sqrt (m * m + 1) in
  let D := fun th => (Rr * cos th - X) * (Rr * cos th - X) + c * c * ((Rr * sin th - y) * (Rr * sin th - y)) in
  is_RInt (fun th => cos th * (Rr * cos th - X) * / D th) 0 (2 * PI) (2 * PI / (Rr * (1 + c))) /\
  is_RInt (fun th => sin th * (Rr * cos th - X) * / D th) 0 (2 * PI) 0 /\
  is_RInt (fun th => c * (sin th * (Rr * sin th - y)) * / D th) 0 (2 * PI) (2 * PI / (Rr * (1 + c))).
Proof.
  intros hR HT c D. pose proof (c_ge1 m) as hc. fold c in hc.
  assert (HI : c * c * (X * X) + c * y * (c * y) < c * c * (Rr * Rr)) by (replace (c * c * (X * X) + c * y * (c * y)) with (c * c * (X * X + y * y)) by ring; apply Rmult_lt_compat_l; auto; nra).
  pose proof (ellipse_re1 Rr c X (c * y) hR hc HI) as I1. pose proof (ellipse_rem Rr c X (c * y) hR hc HI) as I2. pose proof (ellipse_im1 Rr c X (c * y) hR hc HI) as I3. pose proof (ellipse_imm Rr c X (c * y) hR hc HI) as I4.
  assert (EA : al Rr c 0 = Rr) by (unfold al; rewrite Ropp_0, exp_0; field). assert (EB : be Rr c 0 = c * Rr) by (unfold be; rewrite Ropp_0, exp_0; field).
  assert (ED : forall th, DD Rr c X (c * y) 0 th = D th) by (intros th; unfold DD, d1, d2, D; rewrite EA, EB; ring).
  pose proof PI_RGT_0. split; [|split].
  - replace (2 * PI / (Rr * (1 + c))) with (scal (1 / 2) (plus (2 * PI * Lim Rr c) 0)) by (unfold scal, plus, Lim; cbn; unfold mult; cbn; field; split; lra).
    apply (is_RInt_ext (fun th => scal (1 / 2) (plus (re Rr c X (c * y) 1 0 th) (re Rr c X (c * y) (-1) 0 th)))); [|apply (is_RInt_scal (fun th => plus (re Rr c X (c * y) 1 0 th) (re Rr c X (c * y) (-1) 0 th))); apply (is_RInt_plus (re Rr c X (c * y) 1 0) (re Rr c X (c * y) (-1) 0)); auto].
    intros th _. unfold scal, plus. cbn. unfold mult. cbn. unfold re. rewrite ED. unfold d1, d2. rewrite EA, EB, !Rmult_0_r, exp_0. field. intros E. apply (Rgt_not_eq (DD Rr c X (c * y) 0 th) 0); [|rewrite ED; exact E]. apply DD_pos. apply Pin_ok; auto. lra.
  - replace 0 with (scal (1 / 2) (minus 0 0)) at 2 by (unfold scal, minus, plus, opp; cbn; unfold mult; cbn; ring).
    apply (is_RInt_ext (fun th => scal (1 / 2) (minus (im Rr c X (c * y) 1 0 th) (im Rr c X (c * y) (-1) 0 th)))); [|apply (is_RInt_scal (fun th => minus (im Rr c X (c * y) 1 0 th) (im Rr c X (c * y) (-1) 0 th))); apply (is_RInt_minus (im Rr c X (c * y) 1 0) (im Rr c X (c * y) (-1) 0)); auto].
    intros th _. unfold scal, minus, plus, opp. cbn. unfold mult. cbn. unfold im. rewrite ED. unfold d1, d2. rewrite EA, EB, !Rmult_0_r, exp_0. field. intros E. apply (Rgt_not_eq (DD Rr c X (c * y) 0 th) 0); [|rewrite ED; exact E]. apply DD_pos. apply Pin_ok; auto. lra.
  - replace (2 * PI / (Rr * (1 + c))) with (scal (1 / 2) (minus (2 * PI * Lim Rr c) 0)) by (unfold scal, minus, plus, opp, Lim; cbn; unfold mult; cbn; field; split; lra).
    apply (is_RInt_ext (fun th => scal (1 / 2) (minus (re Rr c X (c * y) 1 0 th) (re Rr c X (c * y) (-1) 0 th)))); [|apply (is_RInt_scal (fun th => minus (re Rr c X (c * y) 1 0 th) (re Rr c X (c * y) (-1) 0 th))); apply (is_RInt_minus (re Rr c X (c * y) 1 0) (re Rr c X (c * y) (-1) 0)); auto].
    intros th _. unfold scal, minus, plus, opp. cbn. unfold mult. cbn. unfold re. rewrite ED. unfold d1, d2. rewrite EA, EB, !Rmult_0_r, exp_0. field. intros E. apply (Rgt_not_eq (DD Rr c X (c * y) 0 th) 0); [|rewrite ED; exact E]. apply DD_pos. apply Pin_ok; auto. lra.
Qed.
Lemma tan_half m : tan (atan m / 2) = m / (1 + sqrt (m * m + 1)).
Proof.
  set (h := atan m / 2). pose proof (atan_bound m) as B. pose proof PI_RGT_0. assert (Hh : - PI / 4 < h < PI / 4) by (unfold h; lra).
  assert (Ch : 0 < cos h) by (apply cos_gt_0; lra). assert (C2h : 0 < cos (2 * h)) by (apply cos_gt_0; lra).
  assert (E : tan (2 * h) = m) by (unfold h; replace (2 * (atan m / 2)) with (atan m) by field; apply tan_atan).
  assert (S : sqrt (m * m + 1) = / cos (2 * h)).
  { apply sqrt_lem_1; [pose proof (Rsq_pos m); lra|apply Rlt_le, Rinv_0_lt_compat; auto|]. rewrite <- E. unfold tan. pose proof (sin2_cos2 (2 * h)) as SC. unfold Rsqr in SC.
    apply (Rmult_eq_reg_r (cos (2 * h) * cos (2 * h))); [|nra]. field_simplify; [|lra|lra]. lra. }
  rewrite S, <- E. unfold tan. pose proof (sin2_cos2 h) as SC. unfold Rsqr in SC. rewrite sin_2a. rewrite cos_2a in *. 
  assert (N1 : 1 + (cos h * cos h - sin h * sin h) = 2 * (cos h * cos h)) by lra.
  transitivity (2 * sin h * cos h / (1 + (cos h * cos h - sin h * sin h))); [rewrite N1; field; lra|]. field. repeat split; try lra. 
Qed.
Lemma SV_opp g Rr m x y z : 0 < Rr -> in_tube Rr m x y z ->
  px (SV g Rr m (x, y, z)) + px (SV g Rr m (- x, - y, - z)) = g * tan (atan m / 2) /\
  py (SV g Rr m (x, y, z)) + py (SV g Rr m (- x, - y, - z)) = 0 /\
  pz (SV g Rr m (x, y, z)) + pz (SV g Rr m (- x, - y, - z)) = g.
Proof.
  intros hR HT. pose proof (off_in _ _ _ _ _ HT) as O1. pose proof (off_in _ _ _ _ _ (in_opp _ _ _ _ _ HT)) as O2. rewrite tan_half. pose proof PI_RGT_0. pose proof (c_ge1 m) as hc.
  destruct (rowc g Rr m _ O1) as (A1 & A2 & A3). destruct (rowc g Rr m _ O2) as (B1 & B2 & B3).
  destruct (row_integrals Rr m (x - m * z) y hR HT) as (I1 & I2 & I3).
  pose proof (fun th => rows_sum g Rr m x y z th hR O1 O2) as RS. cbv zeta in *. set (c := sqrt (m * m + 1)) in *.
  assert (K : forall pr : R3 -> R, (forall t, continuous (fun th => pr (row_u g Rr m th (x, y, z))) t) -> (forall t, continuous (fun th => pr (row_u g Rr m th (- x, - y, - z))) t) -> forall F v,
     (forall th, pr (row_u g Rr m th (x, y, z)) + pr (row_u g Rr m (th + PI) (- x, - y, - z)) = F th) -> is_RInt F 0 (2 * PI) v ->
     RInt (fun th => pr (row_u g Rr m th (x, y, z))) 0 (2 * PI) + RInt (fun th => pr (row_u g Rr m th (- x, - y, - z))) 0 (2 * PI) = v).
  { intros pr CA CB F v EF IF. 
    assert (P : is_RInt F 0 (2 * PI) (RInt (fun th => pr (row_u g Rr m th (x, y, z))) 0 (2 * PI) + RInt (fun th => pr (row_u g Rr m th (- x, - y, - z))) 0 (2 * PI))).
    { apply (is_RInt_ext (fun th => plus (pr (row_u g Rr m th (x, y, z))) (pr (row_u g Rr m (th + PI) (- x, - y, - z))))); [intros th _; apply EF|].
      apply (is_RInt_plus (fun th => pr (row_u g Rr m th (x, y, z))) (fun th => pr (row_u g Rr m (th + PI) (- x, - y, - z)))); [apply cont_is_RInt; auto|].
      apply (half_turn (fun th => pr (row_u g Rr m th (- x, - y, - z)))); auto. intros t. rewrite row_per. reflexivity. }
    rewrite <- (RInt_val _ _ _ _ P). apply (RInt_val _ _ _ _ IF). }
  change (px (SV g Rr m (x, y, z))) with (RInt (fun th => px (row_u g Rr m th (x, y, z))) 0 (2 * PI)). change (px (SV g Rr m (- x, - y, - z))) with (RInt (fun th => px (row_u g Rr m th (- x, - y, - z))) 0 (2 * PI)).
  change (py (SV g Rr m (x, y, z))) with (RInt (fun th => py (row_u g Rr m th (x, y, z))) 0 (2 * PI)). change (py (SV g Rr m (- x, - y, - z))) with (RInt (fun th => py (row_u g Rr m th (- x, - y, - z))) 0 (2 * PI)).
  change (pz (SV g Rr m (x, y, z))) with (RInt (fun th => pz (row_u g Rr m th (x, y, z))) 0 (2 * PI)). change (pz (SV g Rr m (- x, - y, - z))) with (RInt (fun th => pz (row_u g Rr m th (- x, - y, - z))) 0 (2 * PI)).
  split; [|split].
  - apply (K px A1 B1 (fun th => g * Rr * m / (2 * PI) * (cos th * (Rr * cos th - (x - m * z)) * / ((Rr * cos th - (x - m * z)) * (Rr * cos th - (x - m * z)) + c * c * ((Rr * sin th - y) * (Rr * sin th - y)))))); [intros th; apply RS|].
    replace (g * (m / (1 + c))) with (scal (g * Rr * m / (2 * PI)) (2 * PI / (Rr * (1 + c)))) by (unfold scal; cbn; unfold mult; cbn; field; repeat split; lra). apply (is_RInt_scal _ _ _ (g * Rr * m / (2 * PI)) _ I1).
  - apply (K py A2 B2 (fun th => g * Rr * m / (2 * PI) * (sin th * (Rr * cos th - (x - m * z)) * / ((Rr * cos th - (x - m * z)) * (Rr * cos th - (x - m * z)) + c * c * ((Rr * sin th - y) * (Rr * sin th - y)))))); [intros th; apply RS|].
    replace 0 with (scal (g * Rr * m / (2 * PI)) 0) at 2 by (unfold scal; cbn; unfold mult; cbn; ring). apply (is_RInt_scal _ _ _ (g * Rr * m / (2 * PI)) _ I2).
  - apply (K pz A3 B3 (fun th => g * Rr / (2 * PI) * ((cos th * (Rr * cos th - (x - m * z)) + c * c * (sin th * (Rr * sin th - y))) * / ((Rr * cos th - (x - m * z)) * (Rr * cos th - (x - m * z)) + c * c * ((Rr * sin th - y) * (Rr * sin th - y)))))); [intros th; apply RS|].
    pose (F := fun th => (cos th * (Rr * cos th - (x - m * z)) + c * c * (sin th * (Rr * sin th - y))) * / ((Rr * cos th - (x - m * z)) * (Rr * cos th - (x - m * z)) + c * c * ((Rr * sin th - y) * (Rr * sin th - y)))).
    assert (I4 : is_RInt F 0 (2 * PI) (plus (2 * PI / (Rr * (1 + c))) (scal c (2 * PI / (Rr * (1 + c)))))).
    { eapply is_RInt_ext; [|exact (is_RInt_plus _ _ _ _ _ _ I1 (is_RInt_scal _ _ _ c _ I3))]. intros th _. unfold F, scal, plus. cbn. unfold mult. cbn. ring. }
    pose proof (is_RInt_scal F 0 (2 * PI) (g * Rr / (2 * PI)) _ I4) as I5. 
    assert (EV : scal (g * Rr / (2 * PI)) (plus (2 * PI / (Rr * (1 + c))) (scal c (2 * PI / (Rr * (1 + c))))) = g) by (unfold scal, plus; cbn; unfold mult; cbn; field; repeat split; lra).
    exact (eq_ind _ (fun w => is_RInt (fun th => scal (g * Rr / (2 * PI)) (F th)) 0 (2 * PI) w) I5 _ EV).
Qed.
(** mirror image in the plane y = 0 *)
Lemma reflect_int (f : R -> R) : (forall x, continuous f x) -> (forall x, f (x + 2 * PI) = f x) -> RInt (fun th => f (- th)) 0 (2 * PI) = RInt f 0 (2 * PI).
Proof.
  intros Hc Hp. apply RInt_val. assert (E : RInt f (- (2 * PI)) 0 = RInt f 0 (2 * PI)) by (rewrite <- (periodic_start f (2 * PI) (- (2 * PI)) Hc Hp); f_equal; ring).
  apply (is_RInt_ext (fun th => opp (scal (-1) (f (-1 * th + 0))))).
  - intros t _. change (- (-1 * f (-1 * t + 0)) = f (- t)). replace (-1 * t + 0) with (- t) by ring. ring.
  - replace (RInt f 0 (2 * PI)) with (opp (- RInt f 0 (2 * PI))) by (unfold opp; cbn; ring). apply (is_RInt_opp (fun th => scal (-1) (f (-1 * th + 0)))).
    apply (is_RInt_comp_lin f (-1) 0 0 (2 * PI)). replace (-1 * 0 + 0) with 0 by ring. replace (-1 * (2 * PI) + 0) with (- (2 * PI)) by ring. rewrite <- E. apply (is_RInt_swap f). apply cont_is_RInt. auto.
Qed.
Lemma row_mirror g Rr m x y z th : row_u g Rr m (- th) (x, - y, z) = (px (row_u g Rr m th (x, y, z)), - py (row_u g Rr m th (x, y, z)), pz (row_u g Rr m th (x, y, z))).
Proof.
  unfold row_u. cbv zeta. rewrite cos_neg, sin_neg.
  assert (E : length3 (sub3 (x, - y, z) (Rr * cos th, Rr * - sin th, 0)) = length3 (sub3 (x, y, z) (Rr * cos th, Rr * sin th, 0))) by (unfold length3; f_equal; unfold inner, sub3, px, py, pz; cbn [fst snd]; ring).
  rewrite E. set (a := length3 (sub3 (x, y, z) (Rr * cos th, Rr * sin th, 0))). unfold px, py, pz, sub3. cbn [fst snd]. set (i0 := 1 / (a * _)). set (i1 := 1 / (sqrt (m * m + 1) * _)). set (k := _ / (4 * PI)). clearbody i0 i1 k. apply tri; ring.
Qed.
Lemma off_mirror Rr m x y z : off_sheet Rr m (x, y, z) -> off_sheet Rr m (x, - y, z).
Proof. intros H th s Hs E. apply (H (- th) s Hs). injection E as E1 E2 E3. rewrite cos_neg, sin_neg. apply tri; lra. Qed.
Lemma SV_mirror g Rr m x y z : off_sheet Rr m (x, y, z) ->
  SV g Rr m (x, - y, z) = (px (SV g Rr m (x, y, z)), - py (SV g Rr m (x, y, z)), pz (SV g Rr m (x, y, z))).
Proof.
  intros O. destruct (rowc g Rr m _ (off_mirror _ _ _ _ _ O)) as (A1 & A2 & A3). destruct (rowc g Rr m _ O) as (B1 & B2 & B3).
  assert (P : forall (pr : R3 -> R) t, pr (row_u g Rr m (t + 2 * PI) (x, - y, z)) = pr (row_u g Rr m t (x, - y, z))) by (intros; rewrite row_per; reflexivity).
  unfold SV at 1. apply tri; [rewrite <- (reflect_int (fun th : R => px (row_u g Rr m th (x, - y, z))) A1 (P px))|rewrite <- (reflect_int (fun th : R => py (row_u g Rr m th (x, - y, z))) A2 (P py))|rewrite <- (reflect_int (fun th : R => pz (row_u g Rr m th (x, - y, z))) A3 (P pz))].
  - apply (@RInt_ext R_CompleteNormedModule). intros t _. rewrite row_mirror. reflexivity.
  - transitivity (RInt (fun th => opp (py (row_u g Rr m th (x, y, z)))) 0 (2 * PI)); [apply (@RInt_ext R_CompleteNormedModule); intros t _; rewrite row_mirror; reflexivity|].
    apply RInt_val. apply (is_RInt_opp (fun th => py (row_u g Rr m th (x, y, z)))). apply cont_is_RInt. exact B2.
  - apply (@RInt_ext R_CompleteNormedModule). intros t _. rewrite row_mirror. reflexivity.
Qed.

(** ** The component along the axis on the rotor plane *)
Section Disk.
  Variables (Rr m x0 y0 : R).
  Hypotheses (hR : 0 < Rr).
  Let c := sqrt (m * m + 1).
  Definition gx (t th : R) : R := Rr * cos th - t * x0.
  Definition gy (t th : R) : R := Rr * sin th - t * y0.
  Definition gr2 (t th : R) : R := gx t th * gx t th + gy t th * gy t th.
  Definition gh (t th : R) : R := c * gr2 t th + m * gx t th * sqrt (gr2 t th).
  Definition gF (t th : R) : R := Rr * ((Rr - t * (x0 * cos th + y0 * sin th)) * / gh t th).
  Definition gq (t th : R) : R := (x0 * gy t th - y0 * gx t th) * / gh t th.
  Definition Pd (t : R) : Prop := 0 < (t * t * (x0 * x0 + y0 * y0) - Rr * Rr) * (t * t * (x0 * x0 + y0 * y0) - Rr * Rr).
  Lemma gr2_pos t th : Pd t -> 0 < gr2 t th.
  Proof using.
    unfold Pd, gr2. intros H. pose proof (Rsq_pos (gx t th)). pose proof (Rsq_pos (gy t th)). destruct (Req_dec (gx t th) 0) as [E1|E1]; [destruct (Req_dec (gy t th) 0) as [E2|E2]|].
    - exfalso. unfold gx, gy in *. pose proof (sin2_cos2 th) as SC. unfold Rsqr in SC.
      assert (E : t * t * (x0 * x0 + y0 * y0) - Rr * Rr = 0). { replace (t * t * (x0 * x0 + y0 * y0)) with ((t * x0) * (t * x0) + (t * y0) * (t * y0)) by ring. replace (t * x0) with (Rr * cos th) by lra. replace (t * y0) with (Rr * sin th) by lra.
        replace (Rr * cos th * (Rr * cos th) + Rr * sin th * (Rr * sin th)) with (Rr * Rr * (sin th * sin th + cos th * cos th)) by ring. rewrite SC. ring. }
      rewrite E in H. lra.
    - pose proof (Rsq_lt (gy t th) E2). lra.
    - pose proof (Rsq_lt (gx t th) E1). lra.
  Qed.
  Lemma gh_low t th : 0 < gr2 t th -> (c - Rabs m) * gr2 t th <= gh t th /\ 0 < c - Rabs m.
  Proof using.
    intros G. unfold gh. destruct (c_pos m) as [Hc C2]. fold c in Hc, C2. assert (CM : Rabs m < c). { apply Rsqr_incrst_0; [|apply Rabs_pos|lra]. unfold Rsqr. rewrite <- Rabs_mult, Rabs_pos_eq by apply Rsq_pos. lra. }
    split; [|lra]. assert (S : 0 < sqrt (gr2 t th)) by (apply sqrt_lt_R0; auto). assert (SS : sqrt (gr2 t th) * sqrt (gr2 t th) = gr2 t th) by (apply sqrt_sqrt; lra).
    assert (XS : Rabs (gx t th) <= sqrt (gr2 t th)). { apply Rsqr_incr_0_var; [|lra]. unfold Rsqr. rewrite <- Rabs_mult, Rabs_pos_eq by apply Rsq_pos. rewrite SS. unfold gr2. pose proof (Rsq_pos (gy t th)). lra. }
    assert (Rabs (m * gx t th * sqrt (gr2 t th)) <= Rabs m * gr2 t th). { rewrite !Rabs_mult, (Rabs_pos_eq (sqrt _)) by lra. rewrite <- SS at 2. rewrite Rmult_assoc. apply Rmult_le_compat_l; [apply Rabs_pos|]. apply Rmult_le_compat_r; lra. }
    apply Rabs_le_between in H. lra.
  Qed.
  Lemma gh_pos t th : Pd t -> 0 < gh t th.
  Proof using. intros H. pose proof (gr2_pos t th H) as G. destruct (gh_low t th G) as [A B]. apply Rlt_le_trans with ((c - Rabs m) * gr2 t th); auto. apply Rmult_lt_0_compat; auto. Qed.
  (** derivatives of the denominator *)
  Definition gh_t (t th : R) : R := let G := -2 * (gx t th * x0 + gy t th * y0) in c * G + m * (- x0 * sqrt (gr2 t th) + gx t th * G / (2 * sqrt (gr2 t th))).
  Definition gh_th (t th : R) : R := let G := 2 * (gx t th * (- Rr * sin th) + gy t th * (Rr * cos th)) in c * G + m * (- Rr * sin th * sqrt (gr2 t th) + gx t th * G / (2 * sqrt (gr2 t th))).
  Lemma gr2_dt t th : is_derive (fun t => gr2 t th) t (-2 * (gx t th * x0 + gy t th * y0)).
  Proof using. unfold gr2, gx, gy. auto_derive; auto. ring. Qed.
  Lemma gr2_dth t th : is_derive (gr2 t) th (2 * (gx t th * (- Rr * sin th) + gy t th * (Rr * cos th))).
  Proof using. unfold gr2, gx, gy. auto_derive; auto. ring. Qed.
  Lemma gh_dt t th : Pd t -> is_derive (fun t => gh t th) t (gh_t t th).
  Proof using.
    intros H. pose proof (gr2_pos t th H) as G. assert (S : 0 < sqrt (gr2 t th)) by (apply sqrt_lt_R0; auto).
    pose proof (gr2_dt t th) as D. pose proof (is_derive_unique (fun x : R => gr2 x th) _ _ D) as D'. pose proof (ex_intro _ _ D : ex_derive (fun x => gr2 x th) t) as ED.
    unfold gh, gh_t, gx, gy in *. auto_derive; [repeat split; auto|]. rewrite D'. field. apply Rgt_not_eq. exact S.
  Qed.
  Lemma gh_dth t th : Pd t -> is_derive (gh t) th (gh_th t th).
  Proof using.
    intros H. pose proof (gr2_pos t th H) as G. assert (S : 0 < sqrt (gr2 t th)) by (apply sqrt_lt_R0; auto).
    pose proof (gr2_dth t th) as D. pose proof (is_derive_unique (fun x : R => gr2 t x) _ _ D) as D'. pose proof (ex_intro _ _ D : ex_derive (fun x => gr2 t x) th) as ED.
    unfold gh, gh_th, gx, gy in *. auto_derive; [repeat split; auto|]. rewrite D'. field. apply Rgt_not_eq. exact S.
  Qed.
  Definition gD (t th : R) : R := Rr * (- (x0 * cos th + y0 * sin th) * / gh t th - (Rr - t * (x0 * cos th + y0 * sin th)) * gh_t t th * / (gh t th * gh t th)).
  Lemma gF_dt t th : Pd t -> is_derive (fun t => gF t th) t (gD t th).
  Proof using.
    intros H. pose proof (gh_pos t th H) as G. pose proof (gh_dt t th H) as D. pose proof (is_derive_unique (fun x : R => gh x th) _ _ D) as D'. pose proof (ex_intro _ _ D : ex_derive (fun x => gh x th) t) as ED.
    unfold gF, gD. auto_derive; [repeat split; auto; lra|]. rewrite D'. field. lra.
  Qed.
  Lemma gq_dth t th : Pd t -> is_derive (gq t) th (gD t th).
  Proof using hR.
    intros H. pose proof (gh_pos t th H) as G. pose proof (gh_dth t th H) as D. pose proof (is_derive_unique (fun x : R => gh t x) _ _ D) as D'. pose proof (ex_intro _ _ D : ex_derive (fun x => gh t x) th) as ED.
    pose proof (gr2_pos t th H) as G2. assert (S : 0 < sqrt (gr2 t th)) by (apply sqrt_lt_R0; auto). assert (SS : sqrt (gr2 t th) * sqrt (gr2 t th) = gr2 t th) by (apply sqrt_sqrt; lra).
    pose proof (sin2_cos2 th) as SC. unfold Rsqr in SC.
    unfold gq, gD, gx, gy. auto_derive; [repeat split; auto; lra|]. rewrite D'. clear D D' ED.
    assert (EH : gh t th = c * gr2 t th + m * gx t th * sqrt (gr2 t th)) by reflexivity. unfold gh_t, gh_th. cbv zeta.
    set (s := sqrt (gr2 t th)) in *. assert (E2 : s * s = gx t th * gx t th + gy t th * gy t th) by (rewrite SS; reflexivity).
    rewrite <- SS in EH. set (h := gh t th) in *. set (C := cos th) in *. set (Sn := sin th) in *.
    assert (GX : gx t th = Rr * C - t * x0) by reflexivity. assert (GY : gy t th = Rr * Sn - t * y0) by reflexivity.
    set (dx := gx t th) in *. set (dy := gy t th) in *. replace (Rr * Sn + - (t * y0)) with dy by (rewrite GY; ring). replace (Rr * C + - (t * x0)) with dx by (rewrite GX; ring).
    assert (GA : Rr - t * (x0 * C + y0 * Sn) = dx * C + dy * Sn) by (rewrite GX, GY; replace Rr with (Rr * (Sn * Sn + C * C)) at 1 by (rewrite SC; ring); ring). rewrite GA.
    clearbody dx dy s h C Sn. clear GX GY GA SS G2 H. 
    apply (Rmult_eq_reg_r (h * h * s)); [|apply Rgt_not_eq; repeat apply Rmult_lt_0_compat; lra]. field_simplify; [|lra|split; lra]. rewrite EH. replace (dy ^ 2) with (s * s - dx * dx) by (rewrite E2; ring). field.
  Qed.
  Lemma gD_c t th : Pd t -> continuity_2d_pt gD t th.
  Proof using.
    intros H. pose proof (gr2_pos t th H) as G. pose proof (gh_pos t th H) as G2. assert (S : 0 < sqrt (gr2 t th)) by (apply sqrt_lt_R0; auto).
    unfold gD, gh_t, gh, gr2, gx, gy, Rdiv in *. cbv zeta in *. c2d'; try (apply Rgt_not_eq; repeat apply Rmult_lt_0_compat; lra). 
  Qed.
  Lemma Pd_open t : Pd t -> locally t Pd.
  Proof using.
    intros H. apply (pos_open (fun t => (t * t * (x0 * x0 + y0 * y0) - Rr * Rr) * (t * t * (x0 * x0 + y0 * y0) - Rr * Rr))); auto.
    apply (@ex_derive_continuous R_AbsRing R_NormedModule). auto_derive. auto.
  Qed.
  Lemma gF_c t th : Pd t -> continuous (gF t) th.
  Proof using.
    intros H. pose proof (gh_pos t th H) as G. pose proof (gh_dth t th H) as D. pose proof (ex_intro _ _ D : ex_derive (fun x => gh t x) th) as ED.
    apply (@ex_derive_continuous R_AbsRing R_NormedModule). unfold gF. auto_derive. repeat split; auto. lra.
  Qed.
  Lemma gF_move a b : a <= b -> (forall t, a <= t <= b -> Pd t) -> RInt (gF a) 0 (2 * PI) = RInt (gF b) 0 (2 * PI).
  Proof using hR.
    intros hab HP. apply (homotopy gF gq gD Pd a b); auto.
    - intros u Hu. apply Pd_open, HP; auto.
    - intros; apply gF_dt; auto.
    - intros; apply gq_dth; auto.
    - intros; apply gD_c; auto.
    - intros; apply gF_c; auto.
    - intros u _. unfold gq, gh, gr2, gx, gy. rewrite cos_2PI, sin_2PI, cos_0, sin_0. reflexivity.
  Qed.
  Lemma disk_inside : x0 * x0 + y0 * y0 < Rr * Rr -> RInt (gF 1) 0 (2 * PI) = RInt (gF 0) 0 (2 * PI).
  Proof using hR.
    intros H. symmetry. apply gF_move; [lra|]. intros t Ht. unfold Pd. pose proof (Rsq_pos x0). pose proof (Rsq_pos y0). assert (t * t * (x0 * x0 + y0 * y0) < Rr * Rr) by (assert (0 <= t * t <= 1) by nra; nra). nra.
  Qed.
  Lemma disk_outside : Rr * Rr < x0 * x0 + y0 * y0 -> RInt (gF 1) 0 (2 * PI) = 0.
  Proof using hR.
    intros H. pose proof PI_RGT_0. set (n := sqrt (x0 * x0 + y0 * y0)). assert (NN : n * n = x0 * x0 + y0 * y0) by (apply sqrt_sqrt; pose proof (Rsq_pos x0); pose proof (Rsq_pos y0); lra).
    assert (N0 : Rr < n) by (apply Rsqr_incrst_0; unfold Rsqr; [lra|lra|apply sqrt_pos]).
    assert (HP : forall t, 1 <= t -> Pd t). { intros t Ht. unfold Pd. rewrite <- NN. assert (n * n <= t * t * (n * n)) by (assert (1 <= t * t) by nra; assert (0 <= n * n) by nra; nra). assert (0 < t * t * (n * n) - Rr * Rr) by nra. apply Rmult_lt_0_compat; auto. }
    destruct (gh_low 1 0 (gr2_pos 1 0 (HP 1 (Rle_refl 1)))) as [_ CM]. set (e := c - Rabs m) in *.
    replace 0 with (2 * PI * 0) at 2 by ring.
    apply (small_eq _ _ (2 * PI * (Rr * (Rr + n) / (e * (n - Rr) * (n - Rr)))) 0); [lra|]. intros s hs. rewrite (gF_move 1 (1 + s)) by (try lra; intros; apply HP; lra).
    replace (2 * PI * (Rr * (Rr + n) / (e * (n - Rr) * (n - Rr))) / (1 + s)) with (2 * PI * (Rr * (Rr + n) / (e * (n - Rr) * (n - Rr)) / (1 + s))) by (field; repeat split; lra).
    apply RInt_close; [intros; apply gF_c, HP; lra|]. intros th. rewrite Rminus_0_r. set (t := 1 + s) in *. assert (Ht : 1 <= t) by (unfold t; lra).
    pose proof (gr2_pos t th (HP t Ht)) as G. destruct (gh_low t th G) as [GL _]. fold e in GL. pose proof (gh_pos t th (HP t Ht)) as GP.
    pose proof (sin2_cos2 th) as SC. unfold Rsqr in SC. set (p := x0 * cos th + y0 * sin th).
    assert (PB : Rabs p <= n). { apply Rsqr_incr_0_var; [|lra]. unfold Rsqr. rewrite <- Rabs_mult, Rabs_pos_eq by apply Rsq_pos. rewrite NN. pose proof (Rsq_pos (x0 * sin th - y0 * cos th)). unfold p.
      replace (x0 * x0 + y0 * y0) with ((x0 * x0 + y0 * y0) * (sin th * sin th + cos th * cos th)) by (rewrite SC; ring). nra. }
    assert (G1 : (t * (n - Rr)) * (t * (n - Rr)) <= gr2 t th).
    { assert (E : gr2 t th = Rr * Rr - 2 * (Rr * t) * p + t * t * (n * n)). { unfold gr2, gx, gy, p. rewrite NN. replace (Rr * Rr) with (Rr * Rr * (sin th * sin th + cos th * cos th)) by (rewrite SC; ring). ring. }
      rewrite E. apply Rabs_le_between in PB. assert (Rr * t * p <= Rr * t * n) by (apply Rmult_le_compat_l; [apply Rmult_le_pos; lra|lra]). assert (0 <= n - Rr) by lra. assert (Rr <= t * Rr) by nra.
      apply Rle_trans with ((t * n - Rr) * (t * n - Rr)); [|nra]. apply Rmult_le_compat; nra. }
    unfold gF. fold p. rewrite Rabs_mult, (Rabs_pos_eq Rr) by lra. rewrite Rabs_mult, (Rabs_pos_eq (/ gh t th)) by (apply Rlt_le, Rinv_0_lt_compat; auto).
    assert (A : Rabs (Rr - t * p) <= t * (Rr + n)). { eapply Rle_trans; [apply Rabs_triang|]. rewrite Rabs_Ropp, Rabs_mult, (Rabs_pos_eq Rr), (Rabs_pos_eq t) by lra. nra. }
    assert (I : / gh t th <= / (e * ((t * (n - Rr)) * (t * (n - Rr))))). { apply Rinv_le_contravar; [repeat apply Rmult_lt_0_compat; lra|]. eapply Rle_trans; [|exact GL]. apply Rmult_le_compat_l; lra. }
    replace (Rr * (Rr + n) / (e * (n - Rr) * (n - Rr)) / t) with (Rr * (t * (Rr + n) * / (e * ((t * (n - Rr)) * (t * (n - Rr)))))) by (field; repeat split; lra).
    apply Rmult_le_compat_l; [lra|]. apply Rmult_le_compat; auto; [apply Rabs_pos|apply Rlt_le, Rinv_0_lt_compat; auto].
  Qed.
End Disk.
Lemma row_zeta g Rr m x y th : off_sheet Rr m (x, y, 0) ->
  pz (row_u g Rr m th (x, y, 0)) + m * px (row_u g Rr m th (x, y, 0)) = g * sqrt (m * m + 1) / (4 * PI) * gF Rr m x y 1 th.
Proof.
  intros O. destruct (c_pos m) as [Hc C2]. set (w := sub3 (x, y, 0) (Rr * cos th, Rr * sin th, 0)).
  assert (EW : w = (x - Rr * cos th, y - Rr * sin th, 0)) by (unfold w, sub3, px, py, pz; cbn [fst snd]; apply tri; ring).
  assert (O1 : ~ (px w = m * pz w /\ py w = 0 /\ 0 <= pz w)) by (rewrite EW; unfold px, py, pz; cbn [fst snd]; intros (A & B & C); apply (O th 0); [lra|]; apply tri; lra).
  pose proof (off_line m (px w) (py w) (pz w) O1) as [Ha Hb]. replace (px w, py w, pz w) with w in Ha, Hb by (destruct w as [[? ?] ?]; reflexivity).
  assert (EB : m * px w + pz w = - (m * gx Rr x 1 th)) by (rewrite EW; unfold px, py, pz, gx; cbn [fst snd]; ring).
  assert (EA : length3 w = sqrt (gr2 Rr x y 1 th)) by (unfold length3; f_equal; rewrite EW; unfold inner, px, py, pz, gr2, gx, gy; cbn [fst snd]; ring).
  assert (AA : gr2 Rr x y 1 th = length3 w * length3 w) by (rewrite length3_sq, EW; unfold inner, px, py, pz, gr2, gx, gy; cbn [fst snd]; ring).
  unfold row_u, gF, gh. fold w. cbv zeta. rewrite <- EA, AA. rewrite EB in *. set (a := length3 w) in *. set (c := sqrt (m * m + 1)) in *. set (d := gx Rr x 1 th) in *. pose proof PI_RGT_0. clearbody a c d.
  unfold px, py, pz. cbn [fst snd].
  replace (c * (a * a) + m * d * a) with (a * (a * c - - (m * d))) by ring. field. repeat split; lra.
Qed.
Lemma SV_zeta g Rr m x y : off_sheet Rr m (x, y, 0) ->
  pz (SV g Rr m (x, y, 0)) + m * px (SV g Rr m (x, y, 0)) = g * sqrt (m * m + 1) / (4 * PI) * RInt (gF Rr m x y 1) 0 (2 * PI).
Proof.
  intros O. destruct (rowc 1 Rr m _ O) as (B1 & B2 & B3). destruct (rowc g Rr m _ O) as (A1 & A2 & A3). pose proof PI_RGT_0. destruct (c_pos m) as [Hc C2].
  assert (CF : forall th, continuous (gF Rr m x y 1) th).
  { intros th. apply (continuous_ext (fun th => 4 * PI / sqrt (m * m + 1) * (pz (row_u 1 Rr m th (x, y, 0)) + m * px (row_u 1 Rr m th (x, y, 0))))); [intros s; rewrite row_zeta by auto; match goal with |- ?a = ?b => change (@eq R a b) end; field; lra|].
    apply (continuous_scal_r (4 * PI / sqrt (m * m + 1)) (fun th => pz (row_u 1 Rr m th (x, y, 0)) + m * px (row_u 1 Rr m th (x, y, 0)))). apply (continuous_plus (fun th => pz (row_u 1 Rr m th (x, y, 0))) (fun th => m * px (row_u 1 Rr m th (x, y, 0)))); [apply B3|].
    apply (continuous_scal_r m (fun th => px (row_u 1 Rr m th (x, y, 0)))). apply B1. }
  pose proof (is_RInt_plus (fun th : R => pz (row_u g Rr m th (x, y, 0))) _ _ _ _ _ (cont_is_RInt _ 0 (2 * PI) A3) (is_RInt_scal (fun th : R => px (row_u g Rr m th (x, y, 0))) 0 (2 * PI) m _ (cont_is_RInt _ 0 (2 * PI) A1))) as I1.
  pose proof (is_RInt_scal (gF Rr m x y 1) 0 (2 * PI) (g * sqrt (m * m + 1) / (4 * PI)) _ (cont_is_RInt _ 0 (2 * PI) CF)) as I2.
  assert (I3 : is_RInt (fun th : R => scal (g * sqrt (m * m + 1) / (4 * PI)) (gF Rr m x y 1 th)) 0 (2 * PI) (pz (SV g Rr m (x, y, 0)) + m * px (SV g Rr m (x, y, 0)))).
  { eapply is_RInt_ext; [|exact I1]. intros th _. exact (row_zeta g Rr m x y th O). }
  rewrite <- (RInt_val _ _ _ _ I3). apply (RInt_val _ _ _ _ I2).
Qed.
Lemma SV_centre g Rr m : 0 < Rr -> SV g Rr m (0, 0, 0) = (g / 2 * tan (atan m / 2), 0, g / 2).
Proof.
  intros hR. assert (T : in_tube Rr m 0 0 0) by (unfold in_tube; replace ((0 - m * 0) * (0 - m * 0) + 0 * 0) with 0 by ring; nra).
  destruct (SV_opp g Rr m 0 0 0 hR T) as (A & B & C). rewrite !Ropp_0 in *. set (u := SV g Rr m (0, 0, 0)) in *. destruct u as [[ux uy] uz]. unfold px, py, pz in *. cbn [fst snd] in *. apply tri; lra.
Qed.
Lemma gF0 Rr m x y : 0 < Rr -> RInt (gF Rr m x y 0) 0 (2 * PI) = 2 * PI.
Proof.
  intros hR. assert (T : in_tube Rr m 0 0 0) by (unfold in_tube; replace ((0 - m * 0) * (0 - m * 0) + 0 * 0) with 0 by ring; nra). pose proof PI_RGT_0. destruct (c_pos m) as [Hc C2].
  pose proof (SV_zeta 1 Rr m 0 0 (off_in _ _ _ _ _ T)) as E. rewrite (SV_centre 1 Rr m hR), tan_half in E. unfold px, py, pz in E. cbn [fst snd] in E. set (c := sqrt (m * m + 1)) in *.
  assert (EF : RInt (gF Rr m x y 0) 0 (2 * PI) = RInt (gF Rr m 0 0 1) 0 (2 * PI)). { apply (@RInt_ext R_CompleteNormedModule). intros t _. unfold gF, gh, gr2, gx, gy. rewrite !Rmult_0_l, Rplus_0_r, !Rmult_0_r. reflexivity. }
  rewrite EF. set (I := RInt (gF Rr m 0 0 1) 0 (2 * PI)) in *. 
  assert (E2 : 1 / 2 + m * (1 / 2 * (m / (1 + c))) = c / 2). { apply (Rmult_eq_reg_r (2 * (1 + c))); [|lra]. field_simplify; [|lra]. nra. }
  rewrite E2 in E. apply (Rmult_eq_reg_l (1 * c / (4 * PI))); [|apply Rgt_not_eq, Rdiv_lt_0_compat; lra]. rewrite <- E. field. lra.
Qed.
Lemma cos_atan_c m : cos (atan m) = / sqrt (m * m + 1) /\ sin (atan m) = m / sqrt (m * m + 1).
Proof. rewrite cos_atan, sin_atan. unfold Rsqr, Rdiv. rewrite (Rplus_comm 1), Rmult_1_l. split; reflexivity. Qed.

(** ** Far wake *)
Section Far.
  Variables (g Rr m x y z : R).
  Hypotheses (hR : 0 < Rr) (hT : in_tube Rr m x y z) (hz : 2 * Rr <= z).
  Let c := sqrt (m * m + 1).
  (** the rows seen from the point upstream *)
  Lemma up_rows th : let u := row_u g Rr m th (- x, - y, - z) in let B := Rabs g * Rr * (1 + Rabs m) / (2 * PI * z) in Rabs (px u) <= B /\ Rabs (py u) <= B /\ Rabs (pz u) <= B.
  Proof using hR hT hz.
    cbv zeta. unfold row_u. set (w := sub3 (- x, - y, - z) (Rr * cos th, Rr * sin th, 0)). cbv zeta. fold c.
    assert (EW : w = (- x - Rr * cos th, - y - Rr * sin th, - z)) by (unfold w, sub3, px, py, pz; cbn [fst snd]; apply tri; ring).
    destruct (c_pos m) as [Hc C2]. fold c in Hc, C2. pose proof (c_ge1 m) as hc. fold c in hc. pose proof PI_RGT_0. pose proof (Rabs_pos m) as M0. pose proof (Rabs_pos g) as G0.
    assert (hz0 : 0 < z) by lra.
    assert (AZ : z <= length3 w). { apply Rsqr_incr_0_var; [|apply sqrt_pos]. unfold Rsqr. rewrite length3_sq, EW. unfold inner, px, py, pz. cbn [fst snd]. pose proof (Rsq_pos (- x - Rr * cos th)). pose proof (Rsq_pos (- y - Rr * sin th)). nra. }
    pose proof (COS_bound th) as CB. pose proof (SIN_bound th) as SB. pose proof (sin2_cos2 th) as SC. unfold Rsqr in SC.
    unfold in_tube in hT. set (X := x - m * z) in *. assert (EX : x = X + m * z) by (unfold X; ring).
    assert (XB : Rabs X <= Rr) by (apply Rabs_le; pose proof (Rsq_pos y); split; nra).
    assert (PB : Rabs (X * cos th + y * sin th) <= Rr).
    { apply Rsqr_incr_0_var; [|lra]. unfold Rsqr. rewrite <- Rabs_mult, Rabs_pos_eq by apply Rsq_pos. pose proof (Rsq_pos (X * sin th - y * cos th)).
      apply Rle_trans with ((X * X + y * y) * (sin th * sin th + cos th * cos th)); [nra|rewrite SC; lra]. }
    assert (MX : Rabs (m * (X + Rr * cos th)) <= Rabs m * (2 * Rr)). { rewrite Rabs_mult. apply Rmult_le_compat_l; auto. eapply Rle_trans; [apply Rabs_triang|]. rewrite (Rabs_mult Rr), (Rabs_pos_eq Rr) by lra. assert (Rabs (cos th) <= 1) by (apply Rabs_le; lra). nra. }
    assert (BN : m * px w + pz w <= 0).
    { rewrite EW. unfold px, py, pz. cbn [fst snd]. rewrite EX. replace (m * (- (X + m * z) - Rr * cos th) + - z) with (- ((m * m + 1) * z) - m * (X + Rr * cos th)) by ring. apply Rabs_le_between in MX.
      assert (MM : m * m = Rabs m * Rabs m) by (rewrite <- Rabs_mult, Rabs_pos_eq; [reflexivity|apply Rsq_pos]). assert (Rabs m <= m * m + 1) by (rewrite MM; nra). nra. }
    set (a := length3 w) in *. set (b := m * px w + pz w) in *. clearbody a b.
    assert (AC : z * c <= a * c - b) by nra. assert (ZC : 0 < z * c) by (apply Rmult_lt_0_compat; lra).
    assert (I0 : 0 < 1 / (a * (a * c - b)) <= 1 / (z * (z * c))).
    { split; [apply Rdiv_lt_0_compat; [lra|apply Rmult_lt_0_compat; lra]|]. unfold Rdiv. rewrite !Rmult_1_l. apply Rinv_le_contravar; [apply Rmult_lt_0_compat; lra|]. apply Rmult_le_compat; lra. }
    assert (I1 : 0 < 1 / (c * (a * c - b)) <= 1 / (c * (z * c))).
    { split; [apply Rdiv_lt_0_compat; [lra|apply Rmult_lt_0_compat; lra]|]. unfold Rdiv. rewrite !Rmult_1_l. apply Rinv_le_contravar; [apply Rmult_lt_0_compat; lra|]. apply Rmult_le_compat_l; lra. }
    set (i0 := 1 / (a * (a * c - b))) in *. set (i1 := 1 / (c * (a * c - b))) in *. clearbody i0 i1.
    set (k := g * c * Rr / (4 * PI)). assert (KA : Rabs k = Rabs g * c * Rr / (4 * PI)). { unfold k, Rdiv. rewrite !Rabs_mult, (Rabs_pos_eq c), (Rabs_pos_eq Rr), (Rabs_pos_eq (/ (4 * PI))); try lra. apply Rlt_le, Rinv_0_lt_compat. lra. }
    assert (K : forall A B a' b', Rabs A <= a' -> Rabs B <= b' -> Rabs (k * A * i0 + k * B * i1) <= Rabs g * Rr / (4 * PI * z) * (a' / z + b' / c)).
    { intros A B a' b' HA HB. eapply Rle_trans; [apply Rabs_triang|]. rewrite !Rabs_mult, (Rabs_pos_eq i0), (Rabs_pos_eq i1) by lra. rewrite KA.
      replace (Rabs g * Rr / (4 * PI * z) * (a' / z + b' / c)) with (Rabs g * c * Rr / (4 * PI) * a' * (1 / (z * (z * c))) + Rabs g * c * Rr / (4 * PI) * b' * (1 / (c * (z * c)))) by (field; repeat split; lra).
      assert (0 <= Rabs g * c * Rr / (4 * PI)) by (rewrite <- KA; apply Rabs_pos). apply Rplus_le_compat; (apply Rmult_le_compat; [apply Rmult_le_pos; auto; apply Rabs_pos|lra|apply Rmult_le_compat_l; auto|lra]). }
    assert (CC : 1 / c <= 1). { apply (Rmult_le_reg_r c); [lra|]. unfold Rdiv. rewrite Rmult_assoc, Rinv_l by lra. lra. } assert (CC0 : 0 < 1 / c) by (apply Rdiv_lt_0_compat; lra).
    assert (Q : forall q, q <= 2 * (1 + Rabs m) -> Rabs g * Rr / (4 * PI * z) * q <= Rabs g * Rr * (1 + Rabs m) / (2 * PI * z)).
    { intros q Hq. replace (Rabs g * Rr * (1 + Rabs m) / (2 * PI * z)) with (Rabs g * Rr / (4 * PI * z) * (2 * (1 + Rabs m))) by (field; split; lra). apply Rmult_le_compat_l; auto. apply Rmult_le_pos; [apply Rmult_le_pos; lra|apply Rlt_le, Rinv_0_lt_compat; apply Rmult_lt_0_compat; lra]. }
    assert (CA : Rabs (cos th) <= 1) by (apply Rabs_le; lra). assert (SA : Rabs (sin th) <= 1) by (apply Rabs_le; lra).
    unfold px, py, pz. cbn [fst snd]. split; [|split].
    - replace (k * (- z * cos th) * i0 + - k * cos th * i1) with (k * (- z * cos th) * i0 + k * (- cos th) * i1) by ring. eapply Rle_trans; [apply (K _ _ z 1)|apply Q; replace (z / z) with 1 by (field; lra); lra].
      + rewrite Rabs_mult, Rabs_Ropp, (Rabs_pos_eq z) by lra. nra.
      + rewrite Rabs_Ropp. exact CA.
    - replace (k * (- z * sin th) * i0 + - k * sin th * i1) with (k * (- z * sin th) * i0 + k * (- sin th) * i1) by ring. eapply Rle_trans; [apply (K _ _ z 1)|apply Q; replace (z / z) with 1 by (field; lra); lra].
      + rewrite Rabs_mult, Rabs_Ropp, (Rabs_pos_eq z) by lra. nra.
      + rewrite Rabs_Ropp. exact SA.
    - eapply Rle_trans; [apply (K _ _ (z * (1 + Rabs m)) (Rabs m))|apply Q; replace (z * (1 + Rabs m) / z) with (1 + Rabs m) by (field; lra); assert (Rabs m / c <= Rabs m * 1) by (unfold Rdiv in *; apply Rmult_le_compat_l; lra); lra].
      + replace (Rr - - x * cos th - - y * sin th) with (Rr + (X * cos th + y * sin th) + m * z * cos th) by (rewrite EX; ring). eapply Rle_trans; [apply Rabs_triang|]. eapply Rle_trans; [apply Rplus_le_compat_r, Rabs_triang|]. rewrite !Rabs_mult, (Rabs_pos_eq Rr), (Rabs_pos_eq z) by lra.
        assert (Rabs m * z * Rabs (cos th) <= Rabs m * z) by (assert (0 <= Rabs m * z) by (apply Rmult_le_pos; lra); nra). nra.
      + rewrite Rabs_mult. nra.
  Qed.
  Lemma up_SV : let u := SV g Rr m (- x, - y, - z) in let B := Rabs g * Rr * (1 + Rabs m) / z in Rabs (px u) <= B /\ Rabs (py u) <= B /\ Rabs (pz u) <= B.
  Proof using hR hT hz.
    cbv zeta. destruct (rowc g Rr m _ (off_in _ _ _ _ _ (in_opp _ _ _ _ _ hT))) as (A1 & A2 & A3). pose proof up_rows as U. cbv zeta in U. pose proof PI_RGT_0.
    assert (K : forall f : R -> R, (forall t, continuous f t) -> (forall t, Rabs (f t) <= Rabs g * Rr * (1 + Rabs m) / (2 * PI * z)) -> Rabs (RInt f 0 (2 * PI)) <= Rabs g * Rr * (1 + Rabs m) / z).
    { intros f Hc Hb. pose proof (RInt_close f 0 _ Hc (fun t => eq_ind_r (fun w => Rabs w <= _) (Hb t) (Rminus_0_r (f t)))) as Q. rewrite Rmult_0_r, Rminus_0_r in Q.
      replace (Rabs g * Rr * (1 + Rabs m) / z) with (2 * PI * (Rabs g * Rr * (1 + Rabs m) / (2 * PI * z))) by (field; split; lra). exact Q. }
    split; [|split]; [apply (K _ A1)|apply (K _ A2)|apply (K _ A3)]; intros t; apply U.
  Qed.
End Far.

(** ** Theorems *)
(** the velocities at two opposite points of the tube always add up to the same vector *)
Theorem C123_opposite_points : forall g Rr m x y z, 0 < Rr -> in_tube Rr m x y z ->
  exists u v, skewed_velocity g Rr m (x, y, z) u /\ skewed_velocity g Rr m (- x, - y, - z) v /\ add3 u v = (g * tan (atan m / 2), 0, g).
Proof.
  intros g Rr m x y z hR HT. exists (SV g Rr m (x, y, z)), (SV g Rr m (- x, - y, - z)). destruct (SV_opp g Rr m x y z hR HT) as (A & B & C).
  split; [apply SV_ok, off_in; auto|]. split; [apply SV_ok, off_in, in_opp; auto|]. unfold add3. rewrite A, B, C. reflexivity.
Qed.
(** at the rotor centre *)
Theorem C123_rotor_centre : forall g Rr m, 0 < Rr -> skewed_velocity g Rr m (0, 0, 0) (g / 2 * tan (atan m / 2), 0, g / 2).
Proof.
  intros g Rr m hR. rewrite <- (SV_centre g Rr m hR). apply SV_ok, off_in. unfold in_tube. replace ((0 - m * 0) * (0 - m * 0) + 0 * 0) with 0 by ring. nra.
Qed.
(** mirror symmetry in the plane y = 0, everywhere off the sheet *)
Theorem C123_mirror : forall g Rr m x y z ux uy uz, off_sheet Rr m (x, y, z) -> skewed_velocity g Rr m (x, y, z) (ux, uy, uz) -> skewed_velocity g Rr m (x, - y, z) (ux, - uy, uz).
Proof.
  intros g Rr m x y z ux uy uz O H. apply (SV_unique g Rr m _ _ O) in H. pose proof (SV_mirror g Rr m x y z O) as E. rewrite <- H in E. unfold px, py, pz in E. cbn [fst snd] in E. rewrite <- E. apply SV_ok, off_mirror, O.
Qed.
(** on the diameter across the skew, the two components in the plane of the skew are those of the centre *)
Theorem C123_vertical_diameter : forall g Rr m y, Rabs y < Rr -> exists uy, skewed_velocity g Rr m (0, y, 0) (g / 2 * tan (atan m / 2), uy, g / 2).
Proof.
  intros g Rr m y Hy. pose proof (Rabs_pos y). assert (hR : 0 < Rr) by lra. apply Rabs_lt_between in Hy.
  assert (HT : in_tube Rr m 0 y 0) by (unfold in_tube; replace ((0 - m * 0) * (0 - m * 0) + y * y) with (y * y) by ring; nra).
  destruct (SV_opp g Rr m 0 y 0 hR HT) as (A & B & C). rewrite !Ropp_0 in *. rewrite (SV_mirror g Rr m 0 y 0 (off_in _ _ _ _ _ HT)) in A, B, C. pose proof (SV_ok g Rr m _ (off_in _ _ _ _ _ HT)) as K.
  destruct (SV g Rr m (0, y, 0)) as [[ux uy] uz]. unfold px, py, pz in *. cbn [fst snd] in *. exists uy. replace (g / 2 * tan (atan m / 2)) with ux by lra. replace (g / 2) with uz by lra. exact K.
Qed.
(** the component along the wake axis is g/2 at every point of the rotor disk, and zero in the rest of the rotor plane *)
Theorem C123_rotor_disk : forall g Rr m x y, 0 < Rr -> x * x + y * y <> Rr * Rr -> exists ux uy uz, skewed_velocity g Rr m (x, y, 0) (ux, uy, uz) /\
  (x * x + y * y < Rr * Rr -> uz * cos (atan m) + ux * sin (atan m) = g / 2) /\
  (Rr * Rr < x * x + y * y -> uz * cos (atan m) + ux * sin (atan m) = 0).
Proof.
  intros g Rr m x y hR HN. assert (O : off_sheet Rr m (x, y, 0)) by (apply off_ne; rewrite Rmult_0_r, Rminus_0_r; exact HN). pose proof (SV_ok g Rr m _ O) as K. pose proof (SV_zeta g Rr m x y O) as E.
  destruct (SV g Rr m (x, y, 0)) as [[ux uy] uz]. unfold px, py, pz in E. cbn [fst snd] in E. exists ux, uy, uz. split; [exact K|]. destruct (cos_atan_c m) as [-> ->]. destruct (c_pos m) as [Hc C2]. pose proof PI_RGT_0.
  split; intros HI.
  - rewrite (disk_inside Rr m x y hR HI), (gF0 Rr m x y hR) in E. transitivity ((uz + m * ux) / sqrt (m * m + 1)); [field; lra|]. rewrite E. field. lra.
  - rewrite (disk_outside Rr m x y hR HI) in E. transitivity ((uz + m * ux) / sqrt (m * m + 1)); [field; lra|]. rewrite E. field. lra.
Qed.
(** far down the wake the velocity is twice that of the rotor centre, and it dies out as fast upstream *)
Theorem C123_far_wake : forall g Rr m x y z, 0 < Rr -> in_tube Rr m x y z -> 2 * Rr <= z -> let B := Rabs g * Rr * (1 + Rabs m) / z in
  exists ux uy uz vx vy vz, skewed_velocity g Rr m (x, y, z) (ux, uy, uz) /\ skewed_velocity g Rr m (- x, - y, - z) (vx, vy, vz) /\
    Rabs (ux - g * tan (atan m / 2)) <= B /\ Rabs uy <= B /\ Rabs (uz - g) <= B /\ Rabs vx <= B /\ Rabs vy <= B /\ Rabs vz <= B.
Proof.
  intros g Rr m x y z hR HT hz B. pose proof (SV_ok g Rr m _ (off_in _ _ _ _ _ HT)) as K1. pose proof (SV_ok g Rr m _ (off_in _ _ _ _ _ (in_opp _ _ _ _ _ HT))) as K2.
  destruct (SV_opp g Rr m x y z hR HT) as (A1 & A2 & A3). destruct (up_SV g Rr m x y z hR HT hz) as (U1 & U2 & U3). fold B in U1, U2, U3. clearbody B.
  destruct (SV g Rr m (x, y, z)) as [[ux uy] uz]. destruct (SV g Rr m (- x, - y, - z)) as [[vx vy] vz]. unfold px, py, pz in *. cbn [fst snd] in *. exists ux, uy, uz, vx, vy, vz.
  split; [exact K1|]. split; [exact K2|]. 
  replace (ux - g * tan (atan m / 2)) with (- vx) by lra. replace uy with (- vy) by lra. replace (uz - g) with (- vz) by lra. rewrite !Rabs_Ropp. repeat split; auto.
Qed.
(** the cylinder of the unit tests: gamma -5, radius 10, skew 30 degrees, seen from the far wake and from two points of the rotor plane *)
Example C123_case : in_tube 10 (tan (PI / 6)) (3 + 20 * tan (PI / 6)) 4 20 /\ 2 * 10 <= 20 /\ atan (tan (PI / 6)) = PI / 6 /\ 3 * 3 + 4 * 4 < 10 * 10 /\ 10 * 10 < 12 * 12 + 0 * 0 /\ Rabs 9 < 10.
Proof.
  pose proof PI_RGT_0. split; [unfold in_tube; replace (3 + 20 * tan (PI / 6) - tan (PI / 6) * 20) with 3 by ring; lra|]. split; [lra|]. split; [apply atan_tan; split; lra|]. split; [lra|]. split; [lra|]. rewrite Rabs_pos_eq; lra.
Qed.
