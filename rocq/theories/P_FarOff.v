(** * C79, C103: the doublet line approximates the (skewed) vortex cylinder away from the wake axis *)
From Coquelicot Require Import Coquelicot.
From Coq Require Import ZArith List Bool Arith Lia String Reals Lra Psatz.
From Verif Require Import Num NumR NumX M_Elliptic M_Line M_Cylinder M_Ring M_Doublet M_Skewed L_List L_X L_Angles L_Built Spec SpecBS L_Calc L_Ell L_Cyl L_Carlson P_Line P_Ring P_Doublet P_Skewed P_Cylinder P_Cylinder2 P_Cylinder3 P_Converge P_FarField P_Quad P_CodeConv.
Import ListNotations.
Local Open Scope R_scope.
Local Notation len := List.length.

(** ** Taylor remainder of 1/|q - e e_r|^3 *)
Lemma grow (f g : R -> R) (G : R -> R) (dG : R -> R) (r : R) : (forall t, 0 <= t <= r -> is_derive f t (g t)) -> (forall t, 0 <= t <= r -> is_derive G t (dG t)) ->
  (forall t, 0 <= t <= r -> Rabs (g t) <= dG t) -> G 0 = 0 -> forall t, 0 <= t <= r -> Rabs (f t - f 0) <= G t.
Proof.
  intros Hf HG HB G0 t Ht.
  assert (M : forall h dh : R -> R, (forall t, 0 <= t <= r -> is_derive h t (dh t)) -> (forall t, 0 <= t <= r -> 0 <= dh t) -> h 0 <= h t).
  { intros h dh Hd Hp. destruct (MVT_gen h 0 t dh) as (c & Hc & E).
    - intros x Hx. rewrite Rmin_left, Rmax_right in Hx by lra. apply Hd. lra.
    - intros x Hx. rewrite Rmin_left, Rmax_right in Hx by lra. apply continuity_pt_filterlim. apply (@ex_derive_continuous R_AbsRing R_NormedModule). exists (dh x). apply Hd. lra.
    - rewrite Rmin_left, Rmax_right in Hc by lra. pose proof (Hp c ltac:(lra)). nra. }
  apply Rabs_le. split.
  - pose proof (M (fun t => G t + f t) (fun t => dG t + g t)) as K.
    assert (G 0 + f 0 <= G t + f t). { apply K; intros x Hx; [apply (is_derive_plus (K := R_AbsRing) (V := R_NormedModule)); auto|]. specialize (HB x Hx). apply Rabs_le_between in HB. lra. } lra.
  - pose proof (M (fun t => G t - f t) (fun t => dG t - g t)) as K.
    assert (G 0 - f 0 <= G t - f t). { apply K; intros x Hx; [apply (is_derive_minus (K := R_AbsRing) (V := R_NormedModule)); auto|]. specialize (HB x Hx). apply Rabs_le_between in HB. lra. } lra.
Qed.
Lemma gd0 (S : R -> R) b e : S e <> 0 -> is_derive S e (- (b - e) / S e) -> is_derive (fun e => / (S e ^ 3)) e (3 * (b - e) / S e ^ 5).
Proof.
  intros H D. assert (X : ex_derive S e) by (eexists; exact D). auto_derive; [repeat split; auto; repeat apply Rmult_integral_contrapositive_currified; auto; lra|].
  replace (Derive (fun x => S x) e) with (- (b - e) / S e) by (symmetry; apply is_derive_unique; exact D). field. auto.
Qed.
Lemma gd1 (S : R -> R) b e : S e <> 0 -> is_derive S e (- (b - e) / S e) -> is_derive (fun e => 3 * (b - e) / S e ^ 5) e (- 3 / S e ^ 5 + 15 * (b - e) ^ 2 / S e ^ 7).
Proof.
  intros H D. assert (X : ex_derive S e) by (eexists; exact D). auto_derive; [repeat split; auto; repeat apply Rmult_integral_contrapositive_currified; auto; lra|].
  replace (Derive (fun x => S x) e) with (- (b - e) / S e) by (symmetry; apply is_derive_unique; exact D). field. auto.
Qed.
Lemma gd2 (S : R -> R) b e : S e <> 0 -> is_derive S e (- (b - e) / S e) -> is_derive (fun e => - 3 / S e ^ 5 + 15 * (b - e) ^ 2 / S e ^ 7) e (- 45 * (b - e) / S e ^ 7 + 105 * (b - e) ^ 3 / S e ^ 9).
Proof.
  intros H D. assert (X : ex_derive S e) by (eexists; exact D). auto_derive; [repeat split; auto; repeat apply Rmult_integral_contrapositive_currified; auto; lra|].
  replace (Derive (fun x => S x) e) with (- (b - e) / S e) by (symmetry; apply is_derive_unique; exact D). field. auto.
Qed.
Section Taylor.
  Variables d b r : R.
  Hypothesis hd : 0 < d.
  Hypothesis hb : Rabs b <= d.
  Hypothesis hr : 0 <= r.
  Hypothesis hrd : 4 * r <= d.
  Let Nq e := d * d - 2 * b * e + e * e.
  Let S e := sqrt (Nq e).
  Lemma S_facts e : 0 <= e <= r -> 0 < Nq e /\ S e * S e = Nq e /\ 3/4 * d <= S e /\ Rabs (b - e) <= S e.
  Proof.
    intros He. apply Rabs_le_between in hb. assert (L : (d - e) * (d - e) <= Nq e) by (unfold Nq; nra).
    assert (P : 0 < Nq e) by nra. assert (SS : S e * S e = Nq e) by (apply sqrt_sqrt; lra). assert (S0 : 0 < S e) by (apply sqrt_lt_R0; auto).
    split; [auto|split; [auto|split]]; [nra|]. apply Rabs_le. assert (B : (b - e) * (b - e) <= S e * S e) by (rewrite SS; unfold Nq; nra). split; nra.
  Qed.
  Lemma S_derive e : 0 <= e <= r -> is_derive S e (- (b - e) / S e).
  Proof.
    intros He. destruct (S_facts e He) as (P & SS & S3 & _). unfold S, Nq. auto_derive; [unfold Nq in P; lra|]. repeat match goal with |- context [sqrt ?A] => replace (sqrt A) with (S e) by (unfold S, Nq; f_equal; ring) end. field. lra.
  Qed.
  Let p0 e := / (S e ^ 3).
  Let p1 e := 3 * (b - e) / S e ^ 5.
  Let p2 e := - 3 / S e ^ 5 + 15 * (b - e) ^ 2 / S e ^ 7.
  Let p3 e := - 45 * (b - e) / S e ^ 7 + 105 * (b - e) ^ 3 / S e ^ 9.
  Lemma d0 e : 0 <= e <= r -> is_derive p0 e (p1 e).
  Proof. intros He. destruct (S_facts e He) as (P & SS & S3 & _). apply gd0; [lra|apply S_derive; auto]. Qed.
  Lemma d1 e : 0 <= e <= r -> is_derive p1 e (p2 e).
  Proof. intros He. destruct (S_facts e He) as (P & SS & S3 & _). apply gd1; [lra|apply S_derive; auto]. Qed.
  Lemma d2 e : 0 <= e <= r -> is_derive p2 e (p3 e).
  Proof. intros He. destruct (S_facts e He) as (P & SS & S3 & _). apply gd2; [lra|apply S_derive; auto]. Qed.
  Lemma inv_le e k : 0 <= e <= r -> / S e ^ k <= (4/3) ^ k / d ^ k.
  Proof.
    intros He. destruct (S_facts e He) as (P & SS & S3 & _). replace ((4/3) ^ k / d ^ k) with (/ (3/4 * d) ^ k).
    - apply Rinv_le_contravar; [apply pow_lt; lra|]. apply pow_incr. lra.
    - rewrite Rpow_mult_distr. replace (4/3) with (/ (3/4)) by field. rewrite pow_inv. field. split; apply pow_nonzero; lra.
  Qed.
  Lemma p2_le e : 0 <= e <= r -> Rabs (p2 e) <= 12 * ((4/3) ^ 5 / d ^ 5).
  Proof.
    intros He. destruct (S_facts e He) as (P & SS & S3 & SB). pose proof (inv_le e 5 He) as I. assert (S0 : 0 < S e) by lra.
    set (x := (b - e) / S e). assert (X : -1 <= x <= 1).
    { apply Rabs_le_between in SB. unfold x. split; [apply Rle_div_r|apply Rle_div_l]; lra. }
    replace (p2 e) with ((15 * (x * x) - 3) * / S e ^ 5) by (unfold p2, x; field; lra). rewrite Rabs_mult.
    assert (I0 : 0 < / S e ^ 5) by (apply Rinv_0_lt_compat, pow_lt; auto). rewrite (Rabs_pos_eq (/ S e ^ 5)) by lra.
    apply Rmult_le_compat; try lra; try apply Rabs_pos. apply Rabs_le. nra.
  Qed.
  Lemma p3_le e : 0 <= e <= r -> Rabs (p3 e) <= 60 * ((4/3) ^ 6 / d ^ 6).
  Proof.
    intros He. destruct (S_facts e He) as (P & SS & S3 & SB). pose proof (inv_le e 6 He) as I. assert (S0 : 0 < S e) by lra.
    set (x := (b - e) / S e). assert (X : -1 <= x <= 1).
    { apply Rabs_le_between in SB. unfold x. split; [apply Rle_div_r|apply Rle_div_l]; lra. }
    replace (p3 e) with ((x * (105 * (x * x) - 45)) * / S e ^ 6) by (unfold p3, x; field; lra). rewrite Rabs_mult.
    assert (I0 : 0 < / S e ^ 6) by (apply Rinv_0_lt_compat, pow_lt; auto). rewrite (Rabs_pos_eq (/ S e ^ 6)) by lra.
    apply Rmult_le_compat; try lra; try apply Rabs_pos. rewrite Rabs_mult. assert (Rabs x <= 1) by (apply Rabs_le; lra). assert (Rabs (105 * (x * x) - 45) <= 60) by (apply Rabs_le; nra).
    pose proof (Rabs_pos x). pose proof (Rabs_pos (105 * (x * x) - 45)). nra.
  Qed.
  Lemma S_zero : S 0 = d.
  Proof. unfold S, Nq. replace (d * d - 2 * b * 0 + 0 * 0) with (d * d) by ring. apply sqrt_square. lra. Qed.
  Lemma taylor3 : Rabs (/ (sqrt (d * d - 2 * b * r + r * r) ^ 3) - (/ d ^ 3 + r * (3 * b / d ^ 5) + r ^ 2 / 2 * (- 3 / d ^ 5 + 15 * b ^ 2 / d ^ 7))) <= 10 * (4/3) ^ 6 * r ^ 3 / d ^ 6.
  Proof.
    set (K := 60 * ((4/3) ^ 6 / d ^ 6)). pose proof S_zero as S0.
    assert (P2 : forall t, 0 <= t <= r -> Rabs (p2 t - p2 0) <= K * t).
    { apply (grow p2 p3 (fun t => K * t) (fun _ => K) r d2); [intros; auto_derive; auto; ring|exact p3_le|ring]. }
    assert (P1 : forall t, 0 <= t <= r -> Rabs (p1 t - t * p2 0 - p1 0) <= K * t ^ 2 / 2).
    { intros t Ht. pose proof (grow (fun t => p1 t - t * p2 0) (fun t => p2 t - p2 0) (fun t => K * t ^ 2 / 2) (fun t => K * t) r) as Z. cbv beta in Z.
      replace (p1 t - t * p2 0 - p1 0) with (p1 t - t * p2 0 - (p1 0 - 0 * p2 0)) by ring. apply Z; auto; [| |unfold Rdiv; rewrite pow_i by lia; ring].
      - intros s Hs. apply (is_derive_minus (K := R_AbsRing) (V := R_NormedModule)); [apply d1; auto|]. auto_derive; auto. ring.
      - intros s Hs. auto_derive; auto. field. }
    assert (P0 : forall t, 0 <= t <= r -> Rabs (p0 t - t * p1 0 - t ^ 2 / 2 * p2 0 - p0 0) <= K * t ^ 3 / 6).
    { intros t Ht. pose proof (grow (fun t => p0 t - (t * p1 0 + t ^ 2 / 2 * p2 0)) (fun t => p1 t - (p1 0 + t * p2 0)) (fun t => K * t ^ 3 / 6) (fun t => K * t ^ 2 / 2) r) as Z. cbv beta in Z.
      replace (p0 t - t * p1 0 - t ^ 2 / 2 * p2 0 - p0 0) with (p0 t - (t * p1 0 + t ^ 2 / 2 * p2 0) - (p0 0 - (0 * p1 0 + 0 ^ 2 / 2 * p2 0))) by field. apply Z; auto; [| | |field].
      - intros s Hs. apply (is_derive_minus (K := R_AbsRing) (V := R_NormedModule)); [apply d0; auto|]. auto_derive; auto. field.
      - intros s Hs. auto_derive; auto. field.
      - intros s Hs. specialize (P1 s Hs). replace (p1 s - (p1 0 + s * p2 0)) with (p1 s - s * p2 0 - p1 0) by ring. exact P1. }
    specialize (P0 r ltac:(lra)). unfold p0, p1, p2 in P0. rewrite S0, Rminus_0_r in P0. unfold S, Nq in P0.
    replace (/ sqrt (d * d - 2 * b * r + r * r) ^ 3 - (/ d ^ 3 + r * (3 * b / d ^ 5) + r ^ 2 / 2 * (-3 / d ^ 5 + 15 * b ^ 2 / d ^ 7))) with
      (/ sqrt (d * d - 2 * b * r + r * r) ^ 3 - r * (3 * b / d ^ 5) - r ^ 2 / 2 * (-3 / d ^ 5 + 15 * b ^ 2 / d ^ 7) - / d ^ 3) by ring.
    eapply Rle_trans; [exact P0|]. right. unfold K. field. lra.
  Qed.
  Lemma taylor2 : Rabs (/ (sqrt (d * d - 2 * b * r + r * r) ^ 3) - (/ d ^ 3 + r * (3 * b / d ^ 5))) <= 6 * (4/3) ^ 5 * r ^ 2 / d ^ 5.
  Proof.
    set (K := 12 * ((4/3) ^ 5 / d ^ 5)). pose proof S_zero as S0.
    assert (P1 : forall t, 0 <= t <= r -> Rabs (p1 t - p1 0) <= K * t).
    { apply (grow p1 p2 (fun t => K * t) (fun _ => K) r d1); [intros; auto_derive; auto; ring|exact p2_le|ring]. }
    assert (P0 : forall t, 0 <= t <= r -> Rabs (p0 t - t * p1 0 - p0 0) <= K * t ^ 2 / 2).
    { intros t Ht. pose proof (grow (fun t => p0 t - t * p1 0) (fun t => p1 t - p1 0) (fun t => K * t ^ 2 / 2) (fun t => K * t) r) as Z. cbv beta in Z.
      replace (p0 t - t * p1 0 - p0 0) with (p0 t - t * p1 0 - (p0 0 - 0 * p1 0)) by ring. apply Z; auto; [| |unfold Rdiv; rewrite pow_i by lia; ring].
      - intros s Hs. apply (is_derive_minus (K := R_AbsRing) (V := R_NormedModule)); [apply d0; auto|]. auto_derive; auto. ring.
      - intros s Hs. auto_derive; auto. field. }
    specialize (P0 r ltac:(lra)). unfold p0, p1 in P0. rewrite S0, Rminus_0_r in P0. unfold S, Nq in P0.
    replace (/ sqrt (d * d - 2 * b * r + r * r) ^ 3 - (/ d ^ 3 + r * (3 * b / d ^ 5))) with (/ sqrt (d * d - 2 * b * r + r * r) ^ 3 - r * (3 * b / d ^ 5) - / d ^ 3) by ring.
    eapply Rle_trans; [exact P0|]. right. unfold K. field. lra.
  Qed.
End Taylor.

(** ** four elements of a ring, a quarter turn apart *)
Section Four.
  Variables d Rr : R.
  Hypothesis hd : 0 < d.
  Hypothesis hR : 0 <= Rr.
  Hypothesis hRd : 4 * Rr <= d.
  Let T b := / (sqrt (d * d - 2 * b * Rr + Rr * Rr) ^ 3).
  Let A3 b := / d ^ 3 + Rr * (3 * b / d ^ 5) + Rr ^ 2 / 2 * (- 3 / d ^ 5 + 15 * b ^ 2 / d ^ 7).
  Let A2 b := / d ^ 3 + Rr * (3 * b / d ^ 5).
  Let e3 := 10 * (4/3) ^ 6 * Rr ^ 3 / d ^ 6.
  Let e2 := 6 * (4/3) ^ 5 * Rr ^ 2 / d ^ 5.
  Lemma e3_d : d * e3 + Rr * e2 <= 82 * (Rr ^ 3 / d ^ 5).
  Proof.
    unfold e3, e2. replace (d * (10 * (4/3) ^ 6 * Rr ^ 3 / d ^ 6) + Rr * (6 * (4/3) ^ 5 * Rr ^ 2 / d ^ 5)) with ((10 * (4/3) ^ 6 + 6 * (4/3) ^ 5) * (Rr ^ 3 / d ^ 5)) by (field; lra).
    apply Rmult_le_compat_r; [|lra]. apply Rmult_le_pos; [apply pow_le; auto|]. apply Rlt_le, Rinv_0_lt_compat, pow_lt; auto.
  Qed.
  Lemma e2_pos : 0 <= e2.
  Proof. unfold e2. apply Rmult_le_pos; [apply Rmult_le_pos; [lra|apply pow_le; auto]|]. apply Rlt_le, Rinv_0_lt_compat, pow_lt; auto. Qed.
  Lemma prod_le a b A B : Rabs a <= A -> Rabs b <= B -> Rabs (a * b) <= A * B.
  Proof. intros. rewrite Rabs_mult. apply Rmult_le_compat; auto using Rabs_pos. Qed.
  Lemma four_abs a b c e E : Rabs a <= E -> Rabs b <= E -> Rabs c <= E -> Rabs e <= E -> Rabs (a + b + c + e) <= 4 * E.
  Proof. intros H1 H2 H3 H4. apply Rabs_le_between in H1, H2, H3, H4. apply Rabs_le. lra. Qed.
  Lemma four_xy k1 k2 b1 b2 q3 q : Rabs k1 <= 1 -> Rabs k2 <= 1 -> Rabs b1 <= d -> Rabs b2 <= d -> Rabs q3 <= d -> k1 * b1 + k2 * b2 = q ->
    Rabs (k1 * q3 * T b1 + k2 * q3 * T b2 + - k1 * q3 * T (- b1) + - k2 * q3 * T (- b2) - 2 * Rr * (3 * q3 * q / d ^ 5)) <= 4 * (82 * (Rr ^ 3 / d ^ 5)).
  Proof.
    intros K1 K2 B1 B2 Q3 E.
    assert (G : forall k b, Rabs k <= 1 -> Rabs b <= d -> Rabs (k * q3 * (T b - A3 b)) <= 82 * (Rr ^ 3 / d ^ 5)).
    { intros k b Hk Hb. eapply Rle_trans; [apply prod_le with (A := 1 * d) (B := e3); [apply prod_le; auto|apply taylor3; auto]|]. pose proof e3_d. pose proof e2_pos. nra. }
    replace (k1 * q3 * T b1 + k2 * q3 * T b2 + - k1 * q3 * T (- b1) + - k2 * q3 * T (- b2) - 2 * Rr * (3 * q3 * q / d ^ 5)) with
      (k1 * q3 * (T b1 - A3 b1) + k2 * q3 * (T b2 - A3 b2) + - k1 * q3 * (T (- b1) - A3 (- b1)) + - k2 * q3 * (T (- b2) - A3 (- b2))).
    - apply four_abs; apply G; rewrite ?Rabs_Ropp; auto.
    - rewrite <- E. unfold A3. field. lra.
  Qed.
  Lemma four_z b1 b2 q3 : Rabs b1 <= d -> Rabs b2 <= d -> b1 * b1 + b2 * b2 = d * d - q3 * q3 ->
    Rabs ((Rr - b1) * T b1 + (Rr - b2) * T b2 + (Rr - - b1) * T (- b1) + (Rr - - b2) * T (- b2) - 2 * Rr * (3 * q3 * q3 / d ^ 5 - / d ^ 3)) <= 4 * (82 * (Rr ^ 3 / d ^ 5)).
  Proof.
    intros B1 B2 E.
    assert (G : forall b, Rabs b <= d -> Rabs (Rr * (T b - A2 b) - b * (T b - A3 b)) <= 82 * (Rr ^ 3 / d ^ 5)).
    { intros b Hb. eapply Rle_trans; [apply Rabs_triang|]. rewrite Rabs_Ropp. 
      pose proof (prod_le Rr (T b - A2 b) Rr e2 ltac:(rewrite Rabs_right; lra) (taylor2 d b Rr hd Hb hR hRd)).
      pose proof (prod_le b (T b - A3 b) d e3 Hb (taylor3 d b Rr hd Hb hR hRd)). pose proof e3_d. lra. }
    replace ((Rr - b1) * T b1 + (Rr - b2) * T b2 + (Rr - - b1) * T (- b1) + (Rr - - b2) * T (- b2) - 2 * Rr * (3 * q3 * q3 / d ^ 5 - / d ^ 3)) with
      ((Rr * (T b1 - A2 b1) - b1 * (T b1 - A3 b1)) + (Rr * (T b2 - A2 b2) - b2 * (T b2 - A3 b2)) + (Rr * (T (- b1) - A2 (- b1)) - - b1 * (T (- b1) - A3 (- b1))) + (Rr * (T (- b2) - A2 (- b2)) - - b2 * (T (- b2) - A3 (- b2)))).
    - apply four_abs; apply G; rewrite ?Rabs_Ropp; auto.
    - replace (q3 * q3) with (d * d - (b1 * b1 + b2 * b2)) by lra. replace (3 * q3 * q3) with (3 * (d * d - (b1 * b1 + b2 * b2))) by lra. unfold A3, A2. field. lra.
  Qed.
End Four.
Lemma quarter th : cos (th + PI / 2) = - sin th /\ sin (th + PI / 2) = cos th /\ cos (th + PI) = - cos th /\ sin (th + PI) = - sin th /\ cos (th + 3 * (PI / 2)) = sin th /\ sin (th + 3 * (PI / 2)) = - cos th.
Proof.
  assert (A : forall a, cos (a + PI / 2) = - sin a /\ sin (a + PI / 2) = cos a) by (intros a; rewrite cos_plus, sin_plus, cos_PI2, sin_PI2; lra).
  destruct (A th) as [A1 A2]. repeat split; auto; try apply neg_cos; try apply neg_sin.
  - replace (th + 3 * (PI / 2)) with (th + PI + PI / 2) by field. rewrite (proj1 (A _)), neg_sin. ring.
  - replace (th + 3 * (PI / 2)) with (th + PI + PI / 2) by field. rewrite (proj2 (A _)), neg_cos. ring.
Qed.
Lemma elem_len p m s Rr C S : C * C + S * S = 1 -> 
  let q := sub3 p (m * s, 0, s) in length3 (sub3 p (Rr * C + m * s, Rr * S, s)) = sqrt (length3 q * length3 q - 2 * (px q * C + py q * S) * Rr + Rr * Rr).
Proof.
  intros E q. rewrite length3_sq. unfold length3. f_equal. unfold q, inner, sub3, px, py, pz. cbn [fst snd].
  replace (Rr * Rr) with (Rr * Rr * (C * C + S * S)) by (rewrite E; ring). ring.
Qed.
Lemma ring4 G Rr m th s p : let k t := bs_kernel p (Rr * cos t + m * s, Rr * sin t, s) (- sin t, cos t, 0) in let d := length3 (sub3 p (m * s, 0, s)) in
  0 <= Rr -> 0 < d -> 4 * Rr <= d ->
  each3 (fun c => Rabs (G * c (k th) + G * c (k (th + PI / 2)) + G * c (k (th + PI)) + G * c (k (th + 3 * (PI / 2))) - 2 / PI * c (point_doublet (0, 0, G * Rr * PI) (m * s, 0, s) p)) <= Rabs G * (82 * (Rr ^ 3 / d ^ 5)) / PI).
Proof.
  intros k d hR hd hRd. pose proof PI_RGT_0 as HP. destruct (quarter th) as (C1 & S1 & C2 & S2 & C3 & S3).
  pose proof (sin2_cos2 th) as SC. unfold Rsqr in SC. set (q := sub3 p (m * s, 0, s)) in *. 
  set (b1 := px q * cos th + py q * sin th). set (b2 := - px q * sin th + py q * cos th).
  set (T := fun b => / (sqrt (d * d - 2 * b * Rr + Rr * Rr) ^ 3)).
  assert (L : forall C S, C * C + S * S = 1 -> / (4 * PI * length3 (sub3 p (Rr * C + m * s, Rr * S, s)) ^ 3) = T (px q * C + py q * S) / (4 * PI)).
  { intros C S E. rewrite (elem_len p m s Rr C S E). fold q d. unfold T. unfold Rdiv. rewrite Rinv_mult. ring. }
  assert (KV : forall C S, C * C + S * S = 1 -> bs_kernel p (Rr * C + m * s, Rr * S, s) (- S, C, 0) =
    (C * pz q * T (px q * C + py q * S) / (4 * PI), S * pz q * T (px q * C + py q * S) / (4 * PI), (Rr - (px q * C + py q * S)) * T (px q * C + py q * S) / (4 * PI))).
  { intros C S E. unfold bs_kernel. rewrite (L C S E). set (TT := T _). unfold scal3, vprod, q, sub3, px, py, pz. cbn [fst snd]. apply tri; unfold Rdiv; try ring.
    replace Rr with (Rr * (C * C + S * S)) at 3 by (rewrite E; ring). ring. }
  assert (D2 : d * d = px q * px q + py q * py q + pz q * pz q) by (unfold d; rewrite length3_sq; reflexivity).
  assert (BB : b1 * b1 + b2 * b2 = d * d - pz q * pz q).
  { rewrite D2. transitivity ((px q * px q + py q * py q) * (sin th * sin th + cos th * cos th)); [unfold b1, b2; ring|rewrite SC; ring]. }
  assert (SQ : forall a, a * a <= d * d -> Rabs a <= d) by (intros a Ha; apply Rabs_le; split; nra).
  pose proof (Rsq_pos (px q)). pose proof (Rsq_pos (py q)). pose proof (Rsq_pos (pz q)). pose proof (Rsq_pos b1). pose proof (Rsq_pos b2).
  assert (B1 : Rabs b1 <= d) by (apply SQ; lra). assert (B2 : Rabs b2 <= d) by (apply SQ; lra). assert (Q3 : Rabs (pz q) <= d) by (apply SQ; lra).
  assert (Kc : Rabs (cos th) <= 1) by (apply Rabs_le, COS_bound). assert (Ks : Rabs (sin th) <= 1) by (apply Rabs_le, SIN_bound).
  assert (KS : forall a, Rabs a <= 1 -> Rabs (- a) <= 1) by (intros; rewrite Rabs_Ropp; auto).
  assert (V1 : k th = (cos th * pz q * T b1 / (4 * PI), sin th * pz q * T b1 / (4 * PI), (Rr - b1) * T b1 / (4 * PI))) by (unfold k; rewrite KV by lra; reflexivity).
  assert (V2 : k (th + PI / 2) = (- sin th * pz q * T b2 / (4 * PI), cos th * pz q * T b2 / (4 * PI), (Rr - b2) * T b2 / (4 * PI))).
  { unfold k. rewrite C1, S1. rewrite KV by lra. replace (px q * - sin th + py q * cos th) with b2 by (unfold b2; ring). reflexivity. }
  assert (V3 : k (th + PI) = (- cos th * pz q * T (- b1) / (4 * PI), - sin th * pz q * T (- b1) / (4 * PI), (Rr - - b1) * T (- b1) / (4 * PI))).
  { unfold k. rewrite C2, S2. rewrite KV by lra. replace (px q * - cos th + py q * - sin th) with (- b1) by (unfold b1; ring). reflexivity. }
  assert (V4 : k (th + 3 * (PI / 2)) = (sin th * pz q * T (- b2) / (4 * PI), - cos th * pz q * T (- b2) / (4 * PI), (Rr - - b2) * T (- b2) / (4 * PI))).
  { unfold k. rewrite C3, S3. rewrite KV by lra. replace (px q * sin th + py q * - cos th) with (- b2) by (unfold b2; ring). reflexivity. }
  rewrite V1, V2, V3, V4. clear V1 V2 V3 V4 KV L k.
  assert (PD : point_doublet (0, 0, G * Rr * PI) (m * s, 0, s) p = (G * Rr * PI / (4 * PI) * (3 * pz q * px q / d ^ 5), G * Rr * PI / (4 * PI) * (3 * pz q * py q / d ^ 5), G * Rr * PI / (4 * PI) * (3 * pz q * pz q / d ^ 5 - / d ^ 3))).
  { unfold point_doublet. fold q d. unfold scal3, sub3, inner, px, py, pz. cbn [fst snd]. apply tri; field; split; lra. }
  rewrite PD. clear PD.
  assert (FIN : forall a b c e M, Rabs (a + b + c + e - 2 * Rr * M) <= 4 * (82 * (Rr ^ 3 / d ^ 5)) ->
     Rabs (G * (a / (4 * PI)) + G * (b / (4 * PI)) + G * (c / (4 * PI)) + G * (e / (4 * PI)) - 2 / PI * (G * Rr * PI / (4 * PI) * M)) <= Rabs G * (82 * (Rr ^ 3 / d ^ 5)) / PI).
  { intros a b c e M H5. replace (G * (a / (4 * PI)) + G * (b / (4 * PI)) + G * (c / (4 * PI)) + G * (e / (4 * PI)) - 2 / PI * (G * Rr * PI / (4 * PI) * M)) with (G / (4 * PI) * (a + b + c + e - 2 * Rr * M)) by (field; lra).
    rewrite Rabs_mult. replace (Rabs G * (82 * (Rr ^ 3 / d ^ 5)) / PI) with (Rabs G / (4 * PI) * (4 * (82 * (Rr ^ 3 / d ^ 5)))) by (field; split; lra).
    assert (E : Rabs (G / (4 * PI)) = Rabs G / (4 * PI)) by (unfold Rdiv; rewrite Rabs_mult, (Rabs_right (/ _)); [reflexivity|apply Rle_ge, Rlt_le, Rinv_0_lt_compat; lra]). rewrite E.
    apply Rmult_le_compat_l; [|exact H5]. apply Rmult_le_pos; [apply Rabs_pos|apply Rlt_le, Rinv_0_lt_compat; lra]. }
  split; [|split]; cbn [px py pz fst snd]; apply FIN.
  - pose proof (four_xy d Rr hd hR hRd (cos th) (- sin th) b1 b2 (pz q) (px q)) as Z. rewrite Ropp_involutive in Z. apply Z; auto.
    transitivity (px q * (sin th * sin th + cos th * cos th)); [unfold b1, b2; ring|rewrite SC; ring].
  - pose proof (four_xy d Rr hd hR hRd (sin th) (cos th) b1 b2 (pz q) (py q)) as Z. apply Z; auto.
    transitivity (py q * (sin th * sin th + cos th * cos th)); [unfold b1, b2; ring|rewrite SC; ring].
  - apply (four_z d Rr hd hR hRd b1 b2 (pz q)); auto.
Qed.

(** ** integration along the wake axis *)
Lemma gen_bound (f g : R -> R) (I B : R) : is_RInt_gen f (at_point 0) (Rbar_locally p_infty) I -> (forall s, 0 <= s -> Rabs (f s) <= g s) ->
  (forall z, 0 <= z -> exists y, is_RInt g 0 z y /\ y <= B) -> Rabs I <= B.
Proof.
  intros H Hg HB. apply Rnot_lt_le. intros C. assert (He : 0 < Rabs I - B) by lra.
  specialize (H (ball I (mkposreal _ He)) (locally_ball I _)). destruct H as [Q S HQ HS H]. destruct HS as [M HM].
  pose proof (Rmax_l 1 (M + 1)). pose proof (Rmax_r 1 (M + 1)).
  destruct (H 0 (Rmax 1 (M + 1)) HQ (HM (Rmax 1 (M + 1)) ltac:(lra))) as (y & Iy & By). cbn [fst snd] in Iy.
  unfold ball in By; cbn in By; unfold AbsRing_ball, abs, minus, plus, opp in By; cbn in By.
  destruct (HB (Rmax 1 (M + 1)) ltac:(lra)) as (w & Iw & Bw).
  assert (Rabs y <= w).
  { apply (@norm_RInt_le R_NormedModule f g 0 (Rmax 1 (M + 1)) y w); [lra|intros x Hx; apply Hg; lra|exact Iy|exact Iw]. }
  pose proof (Rabs_triang_inv I y) as TI. rewrite Rabs_minus_sym in TI. unfold Rminus in TI at 2. lra.
Qed.
Lemma axis_int W dl c a z : 0 <= W -> 0 < dl -> 0 < c -> exists y, is_RInt (fun s => W / (dl ^ 3 * (dl ^ 2 + c ^ 2 * (s - a) ^ 2))) 0 z y /\ y <= W / (dl ^ 4 * c) * PI.
Proof.
  intros hW hd hc. assert (PP : forall s, 0 < dl ^ 2 + c ^ 2 * (s - a) ^ 2) by (intros s; pose proof (pow_lt dl 2 hd); pose proof (pow2_ge_0 (s - a)); pose proof (pow2_ge_0 c); nra).
  exists (W / (dl ^ 4 * c) * atan (c * (z - a) / dl) - W / (dl ^ 4 * c) * atan (c * (0 - a) / dl)). split.
  - apply (is_RInt_derive (fun s => W / (dl ^ 4 * c) * atan (c * (s - a) / dl))).
    + intros s _. auto_derive; auto. specialize (PP s). field. repeat split; lra.
    + intros s _. apply (@ex_derive_continuous R_AbsRing R_NormedModule). specialize (PP s). pose proof (pow_lt dl 3 hd). auto_derive. apply Rmult_integral_contrapositive_currified; [simpl in *; lra|]. intros E. apply (Rlt_irrefl 0). rewrite <- E at 2. replace (dl ^ 2 + c ^ 2 * (s - a) ^ 2) with (dl * (dl * 1) + c * (c * 1) * ((s + - a) * ((s + - a) * 1))) in PP by ring. simpl. lra.
  - rewrite <- Rmult_minus_distr_l. apply Rmult_le_compat_l.
    + apply Rmult_le_pos; auto. apply Rlt_le, Rinv_0_lt_compat, Rmult_lt_0_compat; auto. apply pow_lt; auto.
    + pose proof (atan_bound (c * (z - a) / dl)). pose proof (atan_bound (c * (0 - a) / dl)). lra.
Qed.
(** distance from the wake axis grows at least like a straight line's *)
Lemma axis_dist m p dl : 0 < dl -> (forall s, 0 <= s -> dl <= length3 (sub3 p (m * s, 0, s))) ->
  exists a, forall s, 0 <= s -> dl ^ 2 + sqrt (1 + m ^ 2) ^ 2 * (s - a) ^ 2 <= length3 (sub3 p (m * s, 0, s)) ^ 2.
Proof.
  intros hd H. pose proof (pow2_ge_0 m). replace (sqrt (1 + m ^ 2) ^ 2) with (1 + m ^ 2) by (rewrite pow2_sqrt; lra).
  assert (L2 : forall s, length3 (sub3 p (m * s, 0, s)) ^ 2 = (px p - m * s) ^ 2 + py p ^ 2 + (pz p - s) ^ 2).
  { intros s. transitivity (length3 (sub3 p (m * s, 0, s)) * length3 (sub3 p (m * s, 0, s))); [ring|]. rewrite length3_sq. unfold inner, sub3. cbn [px py pz fst snd]. ring. }
  assert (D : forall s, 0 <= s -> dl ^ 2 <= (px p - m * s) ^ 2 + py p ^ 2 + (pz p - s) ^ 2) by (intros s Hs; rewrite <- L2; specialize (H s Hs); apply pow_incr; lra).
  set (s0 := (m * px p + pz p) / (1 + m ^ 2)). assert (E0 : m * px p + pz p = s0 * (1 + m ^ 2)) by (unfold s0; field; lra).
  destruct (Rle_lt_dec 0 s0) as [P|N].
  - exists s0. intros s Hs. rewrite L2. specialize (D s0 P).
    replace ((px p - m * s) ^ 2 + py p ^ 2 + (pz p - s) ^ 2) with ((px p - m * s0) ^ 2 + py p ^ 2 + (pz p - s0) ^ 2 + (1 + m ^ 2) * (s - s0) ^ 2 + 2 * (s - s0) * (s0 * (1 + m ^ 2) - (m * px p + pz p))) by ring. rewrite E0. nra.
  - exists 0. intros s Hs. rewrite L2. specialize (D 0 (Rle_refl 0)). assert (m * px p + pz p <= 0) by nra.
    replace ((px p - m * s) ^ 2 + py p ^ 2 + (pz p - s) ^ 2) with ((px p - m * 0) ^ 2 + py p ^ 2 + (pz p - 0) ^ 2 + (1 + m ^ 2) * (s - 0) ^ 2 - 2 * s * (m * px p + pz p)) by ring. nra.
Qed.
Lemma gen_comb5 (f1 f2 f3 f4 f5 : R -> R) v1 v2 v3 v4 v5 k : let L f v := is_RInt_gen f (at_point 0) (Rbar_locally p_infty) v in
  L f1 v1 -> L f2 v2 -> L f3 v3 -> L f4 v4 -> L f5 v5 -> L (fun s => f1 s + f2 s + f3 s + f4 s - k * f5 s) (v1 + v2 + v3 + v4 - k * v5).
Proof.
  intros L H1 H2 H3 H4 H5. unfold L in *.
  apply (is_RInt_gen_minus (V := R_NormedModule) (fun s => f1 s + f2 s + f3 s + f4 s) (fun s => k * f5 s) (v1 + v2 + v3 + v4) (k * v5)).
  - apply (is_RInt_gen_plus (V := R_NormedModule) (fun s => f1 s + f2 s + f3 s) f4 (v1 + v2 + v3) v4); auto.
    apply (is_RInt_gen_plus (V := R_NormedModule) (fun s => f1 s + f2 s) f3 (v1 + v2) v3); auto.
    apply (is_RInt_gen_plus (V := R_NormedModule) f1 f2 v1 v2); auto.
  - apply (is_RInt_gen_scal (V := R_NormedModule) f5 k v5); auto.
Qed.
Lemma rows4 g Rr m p dl th u1 u2 u3 u4 uD : 0 < Rr -> 0 < dl -> 4 * Rr <= dl -> (forall s, 0 <= s -> dl <= length3 (sub3 p (m * s, 0, s))) ->
  ring_row_velocity g Rr m th p u1 -> ring_row_velocity g Rr m (th + PI / 2) p u2 -> ring_row_velocity g Rr m (th + PI) p u3 -> ring_row_velocity g Rr m (th + 3 * (PI / 2)) p u4 ->
  doublet_half_line (g * sqrt (1 + m ^ 2) * PI * Rr ^ 2) m p uD ->
  each3 (fun c => Rabs (c u1 + c u2 + c u3 + c u4 - 2 / PI * c uD) <= 82 * Rabs g * (Rr / dl) ^ 4).
Proof.
  intros hR hd hRd HD H1 H2 H3 H4 HU. pose proof PI_RGT_0 as HP. destruct (axis_dist m p dl hd HD) as (a & HA).
  set (c0 := sqrt (1 + m ^ 2)) in *. assert (hc : 0 < c0) by (apply sqrt_lt_R0; pose proof (pow2_ge_0 m); lra).
  set (W := Rabs (g * c0 * Rr) * (82 * Rr ^ 3) / PI).
  assert (hW : 0 <= W) by (unfold W; apply Rmult_le_pos; [apply Rmult_le_pos; [apply Rabs_pos|apply Rmult_le_pos; [lra|apply pow_le; lra]]|apply Rlt_le, Rinv_0_lt_compat; auto]).
  assert (EB : W / (dl ^ 4 * c0) * PI = 82 * Rabs g * (Rr / dl) ^ 4).
  { unfold W. rewrite !Rabs_mult, (Rabs_right c0), (Rabs_right Rr) by lra. field. repeat split; lra. }
  assert (BD : forall s, 0 <= s -> Rabs (g * c0 * Rr) * (82 * (Rr ^ 3 / length3 (sub3 p (m * s, 0, s)) ^ 5)) / PI <= W / (dl ^ 3 * (dl ^ 2 + c0 ^ 2 * (s - a) ^ 2))).
  { intros s Hs. specialize (HA s Hs). specialize (HD s Hs). set (d := length3 (sub3 p (m * s, 0, s))) in *.
    replace (Rabs (g * c0 * Rr) * (82 * (Rr ^ 3 / d ^ 5)) / PI) with (W / (d ^ 3 * d ^ 2)) by (unfold W; field; split; lra).
    unfold Rdiv. apply Rmult_le_compat_l; auto. pose proof (pow_lt dl 3 hd). pose proof (pow_lt dl 2 hd). pose proof (pow2_ge_0 (c0 * (s - a))) as Q. replace ((c0 * (s - a)) ^ 2) with (c0 ^ 2 * (s - a) ^ 2) in Q by ring. apply Rinv_le_contravar; [apply Rmult_lt_0_compat; lra|].
    apply Rmult_le_compat; [lra|lra|apply pow_incr; lra|exact HA]. }
  assert (R4 : forall s, 0 <= s -> _) by (intros s Hs; exact (ring4 (g * c0 * Rr) Rr m th s p ltac:(lra) ltac:(specialize (HD s Hs); lra) ltac:(specialize (HD s Hs); lra))). cbv zeta in R4.
  assert (ED : g * c0 * PI * Rr ^ 2 = g * c0 * Rr * Rr * PI) by ring. rewrite ED in HU.
  rewrite <- EB.
  destruct H1 as (X1 & Y1 & Z1), H2 as (X2 & Y2 & Z2), H3 as (X3 & Y3 & Z3), H4 as (X4 & Y4 & Z4), HU as (X5 & Y5 & Z5). fold c0 in X1, X2, X3, X4, Y1, Y2, Y3, Y4, Z1, Z2, Z3, Z4.
  split; [|split].
  - eapply gen_bound; [exact (gen_comb5 _ _ _ _ _ _ _ _ _ _ (2 / PI) X1 X2 X3 X4 X5)| |intros z _; apply (axis_int W dl c0 a z); auto]. intros s Hs. destruct (R4 s Hs) as (P1 & _). eapply Rle_trans; [exact P1|apply BD; auto].
  - eapply gen_bound; [exact (gen_comb5 _ _ _ _ _ _ _ _ _ _ (2 / PI) Y1 Y2 Y3 Y4 Y5)| |intros z _; apply (axis_int W dl c0 a z); auto]. intros s Hs. destruct (R4 s Hs) as (_ & P1 & _). eapply Rle_trans; [exact P1|apply BD; auto].
  - eapply gen_bound; [exact (gen_comb5 _ _ _ _ _ _ _ _ _ _ (2 / PI) Z1 Z2 Z3 Z4 Z5)| |intros z _; apply (axis_int W dl c0 a z); auto]. intros s Hs. destruct (R4 s Hs) as (_ & _ & P1). eapply Rle_trans; [exact P1|apply BD; auto].
Qed.
(** ** a full turn is four quarter turns *)
Lemma turn4 (f : R -> R) (I k B : R) : is_RInt f 0 (2 * PI) I ->
  (forall th, Rabs (f th + f (th + PI / 2) + f (th + PI) + f (th + 3 * (PI / 2)) - 2 / PI * k) <= B) -> Rabs (I - k) <= PI / 2 * B.
Proof.
  intros HI HB. pose proof PI_RGT_0 as HP.
  assert (EX : ex_RInt f 0 (2 * PI)) by (exists I; exact HI).
  assert (SUB : forall a b, 0 <= a -> a <= b -> b <= 2 * PI -> ex_RInt f a b).
  { intros a b h1 h2 h3. apply (ex_RInt_Chasles_1 f a b (2 * PI)); [lra|]. apply (ex_RInt_Chasles_2 f 0 a (2 * PI)); [lra|exact EX]. }
  assert (SH : forall a, 0 <= a -> a <= 3 * (PI / 2) -> is_RInt (fun t => f (t + a)) 0 (PI / 2) (RInt f a (a + PI / 2))).
  { intros a h1 h2. pose proof (is_RInt_comp_lin (V := R_NormedModule) f 1 a 0 (PI / 2) (RInt f a (a + PI / 2))) as K.
    replace (1 * 0 + a) with a in K by ring. replace (1 * (PI / 2) + a) with (a + PI / 2) in K by ring.
    specialize (K ltac:(apply (@RInt_correct R_CompleteNormedModule), SUB; lra)). eapply (@is_RInt_ext R_NormedModule); [|exact K]. intros x _. cbv beta. replace (1 * x + a) with (x + a) by ring. exact (Rmult_1_l (f (x + a))). }
  assert (EI : I = RInt f 0 (PI / 2) + RInt f (PI / 2) PI + RInt f PI (3 * (PI / 2)) + RInt f (3 * (PI / 2)) (2 * PI)).
  { rewrite <- (RInt_val f 0 (2 * PI) I HI).
    rewrite <- (@RInt_Chasles R_CompleteNormedModule f 0 (3 * (PI / 2)) (2 * PI)) by (apply SUB; lra).
    rewrite <- (@RInt_Chasles R_CompleteNormedModule f 0 PI (3 * (PI / 2))) by (apply SUB; lra).
    rewrite <- (@RInt_Chasles R_CompleteNormedModule f 0 (PI / 2) PI) by (apply SUB; lra). reflexivity. }
  pose proof (SH 0 ltac:(lra) ltac:(lra)) as S0. pose proof (SH (PI / 2) ltac:(lra) ltac:(lra)) as S1. pose proof (SH PI ltac:(lra) ltac:(lra)) as S2. pose proof (SH (3 * (PI / 2)) ltac:(lra) ltac:(lra)) as S3.
  replace (0 + PI / 2) with (PI / 2) in S0 by lra. replace (PI / 2 + PI / 2) with PI in S1 by lra. replace (PI + PI / 2) with (3 * (PI / 2)) in S2 by lra. replace (3 * (PI / 2) + PI / 2) with (2 * PI) in S3 by lra.
  assert (S0' : is_RInt f 0 (PI / 2) (RInt f 0 (PI / 2))) by (apply (@RInt_correct R_CompleteNormedModule), SUB; lra).
  assert (C : is_RInt (fun _ => 2 / PI * k) 0 (PI / 2) k).
  { pose proof (is_RInt_const (V := R_NormedModule) 0 (PI / 2) (2 / PI * k)) as C. assert (E : (PI / 2 - 0) * (2 / PI * k) = k) by (field; lra). unfold is_RInt in C |- *. change (scal (PI / 2 - 0) (2 / PI * k)) with ((PI / 2 - 0) * (2 / PI * k)) in C. rewrite E in C. exact C. }
  assert (T : is_RInt (fun t => f t + f (t + PI / 2) + f (t + PI) + f (t + 3 * (PI / 2)) - 2 / PI * k) 0 (PI / 2) (I - k)).
  { rewrite EI. apply (is_RInt_minus (V := R_NormedModule)); [|exact C]. apply (is_RInt_plus (V := R_NormedModule)); [|exact S3]. apply (is_RInt_plus (V := R_NormedModule)); [|exact S2]. apply (is_RInt_plus (V := R_NormedModule)); [exact S0'|exact S1]. }
  rewrite <- (RInt_val _ _ _ _ T). replace (PI / 2 * B) with ((PI / 2 - 0) * B) by ring.
  apply abs_RInt_le_const; [lra|exists (I - k); exact T|]. intros t _. apply HB.
Qed.
(** the Biot-Savart velocity of the whole (skewed) cylinder and of the doublet line on its axis, anywhere at least
    4 radii away from that axis *)
Lemma sheet_doublet g Rr m p dl u uD : 0 < Rr -> 4 * Rr <= dl -> (forall s, 0 <= s -> dl <= length3 (sub3 p (m * s, 0, s))) ->
  sheet_velocity g Rr m p u -> doublet_half_line (g * sqrt (1 + m ^ 2) * PI * Rr ^ 2) m p uD ->
  each3 (fun c => Rabs (c u - c uD) <= 41 * PI * Rabs g * (Rr / dl) ^ 4).
Proof.
  intros hR hRd HD (F & HF & IX & IY & IZ) HU. assert (hd : 0 < dl) by lra.
  assert (R4 : forall th, _) by (intros th; exact (rows4 g Rr m p dl th _ _ _ _ uD hR hd hRd HD (HF th) (HF (th + PI / 2)) (HF (th + PI)) (HF (th + 3 * (PI / 2))) HU)).
  replace (41 * PI * Rabs g * (Rr / dl) ^ 4) with (PI / 2 * (82 * Rabs g * (Rr / dl) ^ 4)) by (field; lra).
  split; [|split].
  - apply (turn4 (fun th => px (F th))); auto. intros th. exact (proj1 (R4 th)).
  - apply (turn4 (fun th => py (F th))); auto. intros th. exact (proj1 (proj2 (R4 th))).
  - apply (turn4 (fun th => pz (F th))); auto. intros th. exact (proj2 (proj2 (R4 th))).
Qed.

(** ** the code *)
(** specification: every point of the axis (m s, 0, s), s >= 0, of the (skewed) wake is at least [dl] away from [p] *)
Definition off_axis (m dl : R) (p : R3) : Prop := forall s, 0 <= s -> dl <= length3 (sub3 p (m * s, 0, s)).

Lemma off_axis_sheet m Rr dl p : 0 < Rr -> 4 * Rr <= dl -> off_axis m dl p -> off_sheet Rr m p.
Proof.
  intros hR hd H th s Hs E. specialize (H s Hs). rewrite E in H. unfold sub3 in H. cbn [px py pz fst snd] in H.
  assert (EL : length3 (Rr * cos th + m * s - m * s, Rr * sin th - 0, s - s) = Rr).
  { transitivity (sqrt (Rr * Rr)); [|apply sqrt_square; lra]. unfold length3, inner, px, py, pz. cbn [fst snd]. f_equal. pose proof (sin2_cos2 th) as SC. unfold Rsqr in SC.
    transitivity (Rr * Rr * (sin th * sin th + cos th * cos th)); [ring|rewrite SC; ring]. }
  rewrite EL in H. lra.
Qed.
Lemma dhl_unique D m p u v : doublet_half_line D m p u -> doublet_half_line D m p v -> u = v.
Proof.
  intros (A1 & A2 & A3) (B1 & B2 & B3).
  pose proof (is_RInt_gen_unique _ _ A1). pose proof (is_RInt_gen_unique _ _ A2). pose proof (is_RInt_gen_unique _ _ A3).
  pose proof (is_RInt_gen_unique _ _ B1). pose proof (is_RInt_gen_unique _ _ B2). pose proof (is_RInt_gen_unique _ _ B3).
  destruct u as [[u1 u2] u3], v as [[v1 v2] v3]. unfold px, py, pz in *. cbn in *. congruence.
Qed.

(** C103: a doublet line of moment gamma_t sqrt(1+m^2) pi R^2 per unit of z on the axis of a (skewed) wake: at every
    point at least dl >= 4 R away from the axis it gives the velocity of the cylinder up to 41 pi |gamma_t| (R/dl)^4 *)
Theorem C103_doublet_line_approximates_sheet : forall g Rr m dl p, 0 < Rr -> 4 * Rr <= dl -> off_axis m dl p -> ~ near_line m None p ->
  exists uD, doublet_line_u (N := XN) (Fin (g * sqrt (1 + m ^ 2) * PI * Rr ^ 2)) (Fin m) PInf (xv p) = xv uD /\
    forall u, sheet_velocity g Rr m p u -> each3 (fun c => Rabs (c u - c uD) <= 41 * PI * Rabs g * (Rr / dl) ^ 4).
Proof.
  intros g Rr m dl p hR hd HA NL. destruct (C64_line_is_integral_of_doublets (g * sqrt (1 + m ^ 2) * PI * Rr ^ 2) m p NL) as (uD & E & I).
  exists uD. split; [exact E|]. intros u HU. eapply sheet_doublet; eauto.
Qed.
(** ... and so does the quadrature the code uses for the skewed cylinder, with enough points *)
Theorem C103_doublet_line_approximates_skewed_cylinder : forall g Rr m dl r psi z, let p := (r * cos psi, r * sin psi, z) in
  0 < Rr -> 4 * Rr <= dl -> off_axis m dl p -> ~ near_line m None p ->
  exists (uD : R3) (V : nat -> R3), doublet_line_u (N := XN) (Fin (g * sqrt (1 + m ^ 2) * PI * Rr ^ 2)) (Fin m) PInf (xv p) = xv uD /\
    (forall n, (2 <= n)%nat -> svc_tang_u_polar (N := XN) (Fin g) (Fin Rr) (Fin m) n false (Fin r, Fin psi, Fin z) = xv (V n)) /\
    forall eps, 0 < eps -> exists M, forall n, (M <= n)%nat -> each3 (fun c => Rabs (c (V n) - c uD) <= 41 * PI * Rabs g * (Rr / dl) ^ 4 + eps).
Proof.
  intros g Rr m dl r psi z p hR hd HA NL. destruct (C103_doublet_line_approximates_sheet g Rr m dl p hR hd HA NL) as (uD & E & HB).
  destruct (C82_tangential_converges g Rr m r psi z (off_axis_sheet m Rr dl _ hR hd HA)) as (u & V & W & SU & EV & _ & TV & _).
  exists uD, V. split; [exact E|]. split; [exact EV|]. intros eps He. destruct (HB u SU) as (B1 & B2 & B3). destruct TV as (T1 & T2 & T3).
  assert (K : forall c : R3 -> R, Rabs (c u - c uD) <= 41 * PI * Rabs g * (Rr / dl) ^ 4 -> is_lim_seq (fun n => c (V n)) (Finite (c u)) -> exists M, forall n, (M <= n)%nat -> Rabs (c (V n) - c uD) <= 41 * PI * Rabs g * (Rr / dl) ^ 4 + eps).
  { intros c Hc Tc. apply is_lim_seq_spec in Tc. destruct (Tc (mkposreal eps He)) as [M HM]. cbn [pos] in HM. exists M. intros n Hn. specialize (HM n Hn).
    replace (c (V n) - c uD) with ((c u - c uD) + (c (V n) - c u)) by ring. eapply Rle_trans; [apply Rabs_triang|]. lra. }
  destruct (K px B1 T1) as [M1 H1], (K py B2 T2) as [M2 H2], (K pz B3 T3) as [M3 H3].
  exists (Nat.max M1 (Nat.max M2 M3)). intros n Hn. split; [|split]; [apply H1|apply H2|apply H3]; lia.
Qed.
(** C79: the far field of vc_tang_u_doublet at every point outside the cut that is at least dl >= 4 R away from the axis
    of the wake (all points, but those within 1e-8 of the plane z=0 or 2e-8 of the axis, which the code treats apart) *)
Definition off_special (p : R3) : Prop := let r := sqrt (px p * px p + py p * py p) in
  (1/50000000 <= r /\ 1/100000000 <= Rabs (pz p)) \/ (1/50000000 <= r /\ pz p = 0) \/ (r = 0 /\ pz p < - (1/100000000)).
Lemma special_near p : off_special p -> ~ near_line 0 None p.
Proof.
  intros H (Y & X & Z & _). unfold off_special in H. cbv zeta in H. replace (px p - 0 * pz p) with (px p) in X by ring.
  assert (S : 1/50000000 <= sqrt (px p * px p + py p * py p) -> False).
  { intros K. apply Rabs_def2 in X. apply Rabs_def2 in Y. assert (px p * px p <= 1/100000000 * (1/100000000)) by nra. assert (py p * py p <= 1/100000000 * (1/100000000)) by nra.
    assert (sqrt (px p * px p + py p * py p) * sqrt (px p * px p + py p * py p) = px p * px p + py p * py p) by (apply sqrt_sqrt; pose proof (Rsq_pos (px p)); pose proof (Rsq_pos (py p)); lra). nra. }
  destruct H as [[H _]|[[H _]|[_ H]]]; auto. lra.
Qed.
Lemma ff_at g Rr cut (pts : list R3) i p : 0 < Rr -> nth_error pts i = Some p -> cut * Rr < length3 p -> off_special p ->
  exists us uD, vc_tang_u_doublet (N := XN) (Fin g) (Fin Rr) (Fin cut) (map xv pts) = Ok us /\ nth_error us i = Some (xv uD) /\ doublet_half_line (g * sqrt (1 + 0 ^ 2) * PI * Rr ^ 2) 0 p uD.
Proof.
  intros hR Hi Hc HS. destruct (C58_switch_by_distance g Rr cut pts hR) as (us & E & L & FF & _). destruct (FF i p Hi Hc) as (v & Ev & EL).
  destruct (azim_polar p) as [P1 P2]. assert (EP : p = (rho p * cos (azim p), rho p * sin (azim p), pz p)) by (destruct p as [[x y] z]; unfold px, py, pz in *; cbn [fst snd] in *; congruence).
  assert (ER : sqrt (px p ^ 2 + py p ^ 2) = rho p) by (unfold rho; f_equal; ring). rewrite ER in EL.
  destruct (C64_polar_agrees_with_cartesian (g * Rr ^ 2 * PI) (rho p) (pz p) (azim p) false) as (ur & uz & E1 & E2). { exact HS. }
  rewrite <- EP in E2. rewrite E1 in EL. apply Ok_inj in EL. assert (EV : v = (Fin ur, Fin uz)) by (pose proof (f_equal (fun l => hd (NaN, NaN) l) EL) as Z; cbn in Z; symmetry; exact Z).
  destruct (C64_line_is_integral_of_doublets (g * Rr ^ 2 * PI) 0 p (special_near p HS)) as (uD & E3 & I).
  eexists. exists uD. split; [|split].
  - unfold vc_tang_u_doublet, vc_tang_u_doublet_gen. unfold vc_tang_doublet_polar in E. rewrite E. cbn [bind]. reflexivity.
  - rewrite map2_nth_error. rewrite nth_error_map, Hi. cbn [option_map]. nT. rewrite Ev, EV. f_equal. change (Fin ur, Fin uz) with (F2 (ur, uz)). rewrite cart2_X. cbn [fst snd]. rewrite <- E2. exact E3.
  - replace (g * sqrt (1 + 0 ^ 2) * PI * Rr ^ 2) with (g * Rr ^ 2 * PI); [exact I|]. rewrite pow_i by lia. rewrite Rplus_0_r, sqrt_1. ring.
Qed.
Theorem C79_far_field_accurate : forall g Rr cut dl (pts : list R3) i p, 0 < Rr -> 4 * Rr <= dl -> nth_error pts i = Some p -> cut * Rr < length3 p ->
  off_axis 0 dl p -> off_special p ->
  exists us uD, vc_tang_u_doublet (N := XN) (Fin g) (Fin Rr) (Fin cut) (map xv pts) = Ok us /\ nth_error us i = Some (xv uD) /\
    forall u, sheet_velocity g Rr 0 p u -> each3 (fun c => Rabs (c u - c uD) <= 41 * PI * Rabs g * (Rr / dl) ^ 4).
Proof.
  intros g Rr cut dl pts i p hR hd Hi Hc HA HS. destruct (ff_at g Rr cut pts i p hR Hi Hc HS) as (us & uD & E & Ev & I).
  exists us, uD. split; [exact E|]. split; [exact Ev|]. intros u HU. eapply sheet_doublet; eauto.
Qed.
(** ... hence switching to the far field changes what vc_tang_u answers by no more than that, plus the error of the
    elliptic integral after [N] duplications *)
Theorem C79_switch_error : forall g Rr cut dl p, 0 < Rr -> 4 * Rr <= dl -> cut * Rr < length3 p -> off_axis 0 dl p -> off_special p ->
  px p = 0 /\ py p = 0 \/ 1 / 10000000 * Rr <= sqrt (px p * px p + py p * py p) ->
  exists B, forall (tol : R) (N : nat) (pts : list R3) i, tol < 0 -> (2 <= N)%nat -> nth_error pts i = Some p ->
    exists v us uD, nth_error (vc_tang_u_gen (N := XN) (Pi_tol (N := XN) (Fin tol) N) (Fin g) (Fin Rr) (Fin 0) (map xv pts)) i = Some (xv v) /\
      vc_tang_u_doublet (N := XN) (Fin g) (Fin Rr) (Fin cut) (map xv pts) = Ok us /\ nth_error us i = Some (xv uD) /\
      each3 (fun c => Rabs (c v - c uD) <= 41 * PI * Rabs g * (Rr / dl) ^ 4 + B / 4 ^ N).
Proof.
  intros g Rr cut dl p hR hd Hc HA HS HR.
  assert (NR : ~ rim_zone Rr (sqrt (px p * px p + py p * py p)) (pz p)).
  { intros (Z1 & Z2). fold (rho p) in *. assert (A1 : Rabs (rho p - Rr) < 1/100000000 * Rr) by (apply Rmult_lt_reg_r with (/ Rr); [apply Rinv_0_lt_compat; lra|]; replace (1/100000000 * Rr * / Rr) with (1/100000000) by (field; lra); exact Z1).
    assert (A2 : Rabs (pz p) < 1/100000000 * Rr). { unfold Rdiv in Z2. rewrite Rabs_mult, (Rabs_right (/ Rr)) in Z2 by (apply Rle_ge, Rlt_le, Rinv_0_lt_compat; lra). apply Rmult_lt_reg_r with (/ Rr); [apply Rinv_0_lt_compat; lra|]. replace (1/100000000 * Rr * / Rr) with (1/100000000) by (field; lra). lra. }
    apply Rabs_def2 in A1. apply Rabs_def2 in A2. specialize (HA 0 (Rle_refl 0)). 
    assert (E : sub3 p (0 * 0, 0, 0) = p) by (destruct p as [[x y] z]; unfold sub3, px, py, pz; cbn [fst snd]; apply tri; ring). rewrite E in HA.
    pose proof (Rsph_len p) as LP. assert (LL : length3 p * length3 p = rho p * rho p + pz p * pz p) by (rewrite <- LP; apply sqrt_sqrt; pose proof (Rsq_pos (rho p)); pose proof (Rsq_pos (pz p)); lra). nra. }
  destruct (C97_tangential_converges g Rr p hR HR (off_axis_sheet 0 Rr dl p hR hd HA) NR) as (B & u & SU & HV). exists (Rabs B). intros tol N pts i ht hN Hi.
  destruct (HV tol N pts i ht hN Hi) as (v & Ev & V1 & V2 & V3). destruct (C79_far_field_accurate g Rr cut dl pts i p hR hd Hi Hc HA HS) as (us & uD & E & EuD & HB).
  exists v, us, uD. split; [exact Ev|]. split; [exact E|]. split; [exact EuD|]. destruct (HB u SU) as (B1 & B2 & B3).
  assert (P4 : 0 < 4 ^ N) by (apply pow_lt; lra). assert (Q : B / 4 ^ N <= Rabs B / 4 ^ N) by (apply Rmult_le_compat_r; [apply Rlt_le, Rinv_0_lt_compat; auto|apply Rle_abs]).
  assert (Q0 : 0 <= Rabs B / 4 ^ N) by (apply Rmult_le_pos; [apply Rabs_pos|apply Rlt_le, Rinv_0_lt_compat; auto]).
  split; [|split]; [rewrite V1; lra|rewrite V2; lra|].
  replace (pz v - pz uD) with ((pz u - pz uD) + (pz v - pz u)) by ring. eapply Rle_trans; [apply Rabs_triang|]. lra.
Qed.
(** a case: a skewed wake of radius 1, skew m=1/2, seen from 10 radii aside; the difference is below 0.0165 |gamma_t| *)
Example C103_case : off_axis (1/2) 10 (0, 10, -3) /\ ~ near_line (1/2) None (0, 10, -3) /\ 41 * PI * (1 / 10) ^ 4 <= 165 / 10000.
Proof.
  split; [|split].
  - intros s Hs. rewrite <- (sqrt_square 10) at 1 by lra. unfold length3. apply sqrt_le_1_alt. unfold inner, sub3, px, py, pz. cbn [fst snd]. pose proof (Rsq_pos (0 - 1/2 * s)). pose proof (Rsq_pos (-3 - s)). lra.
  - intros (Y & _). unfold py in Y. cbn [fst snd] in Y. rewrite Rabs_right in Y by lra. lra.
  - pose proof PI_4. lra.
Qed.
Example C79_case : off_axis 0 10 (0, 10, -3) /\ off_special (0, 10, -3) /\ 5 * 1 < length3 (0, 10, -3).
Proof.
  assert (L : forall s, 10 <= length3 (sub3 (0, 10, -3) (0 * s, 0, s))).
  { intros s. rewrite <- (sqrt_square 10) at 1 by lra. unfold length3. apply sqrt_le_1_alt. unfold inner, sub3, px, py, pz. cbn [fst snd]. pose proof (Rsq_pos (0 - 0 * s)). pose proof (Rsq_pos (-3 - s)). lra. }
  split; [intros s _; apply L|split].
  - left. unfold px, py, pz. cbn [fst snd]. rewrite Rabs_left by lra. replace (0 * 0 + 10 * 10) with (10 * 10) by ring. rewrite sqrt_square by lra. lra.
  - specialize (L 0). replace (sub3 (0, 10, -3) (0 * 0, 0, 0)) with ((0, 10, -3) : R3) in L by (unfold sub3, px, py, pz; cbn [fst snd]; apply tri; ring). lra.
Qed.
