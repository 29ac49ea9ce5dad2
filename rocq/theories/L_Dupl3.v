(** * Carlson's integrals: bounds; error of one evaluation of the truncated series *)
From Coquelicot Require Import Coquelicot.
From Coq Require Import Reals Lra Psatz.
From Verif Require Import Num NumR M_Elliptic L_X Spec SpecBS L_Calc L_Gen L_Dupl L_Ell L_Dupl2.
Local Open Scope R_scope.

Lemma sqrt_cube_inv_lim (k a : R) : 0 < a -> (forall t, 0 < t -> 0 <= k) -> filterlim (fun t => - / sqrt (t + a)) oo (locally 0).
Proof.
  intros ha _ P [eps HP]. unfold filtermap. pose proof (cond_pos eps) as He.
  exists (/ (eps * eps)). intros t Ht. apply HP. unfold ball; cbn; unfold AbsRing_ball, abs, minus, plus, opp; cbn.
  assert (0 < / (eps * eps)) by (apply Rinv_0_lt_compat; nra).
  assert (K : / sqrt (t + a) < eps).
  { apply (Rmult_lt_reg_r (sqrt (t + a))); [apply sqrt_lt_R0; lra|]. rewrite Rinv_l by (apply Rgt_not_eq, sqrt_lt_R0; lra).
    assert (/ eps < sqrt (t + a)).
    { rewrite <- (sqrt_square (/ eps)) by (apply Rlt_le, Rinv_0_lt_compat; auto). apply sqrt_lt_1; try (apply Rle_0_sqr || lra).
      rewrite <- Rinv_mult. lra. }
    apply (Rmult_lt_compat_l eps) in H0; auto. rewrite Rinv_r in H0 by lra. exact H0. }
  assert (0 < / sqrt (t + a)) by (apply Rinv_0_lt_compat, sqrt_lt_R0; lra). rewrite Ropp_0, Rplus_0_r, Rabs_Ropp, Rabs_pos_eq; lra.
Qed.
Lemma RF_base a : 0 < a -> is_RF a a a (/ sqrt a).
Proof.
  intros ha. unfold is_RF. replace (/ sqrt a) with (0 - (- / sqrt (0 + a))) by (rewrite Rplus_0_l; ring).
  apply (gen_antideriv _ (fun t => - / sqrt (t + a))).
  - intros t ht. assert (0 < sqrt (t + a)) by (apply sqrt_lt_R0; lra). split.
    + auto_derive; [repeat split; lra|]. field. lra.
    + apply (ex_derive_continuous (K := R_AbsRing) (V := R_NormedModule)). auto_derive. repeat split; try lra. apply Rgt_not_eq. repeat apply Rmult_lt_0_compat; lra.
  - apply (lim_right (fun t => - / sqrt (t + a)) 0). apply (ex_derive_continuous (K := R_AbsRing) (V := R_NormedModule)). auto_derive.
    assert (0 < sqrt (0 + a)) by (apply sqrt_lt_R0; lra). repeat split; try lra.
  - apply (sqrt_cube_inv_lim 0); auto. intros; lra.
Qed.
Lemma RJ_base a : 0 < a -> is_RJ a a a a (/ (a * sqrt a)).
Proof.
  intros ha. unfold is_RJ. replace (/ (a * sqrt a)) with (0 - (- / ((0 + a) * sqrt (0 + a)))) by (rewrite !Rplus_0_l; ring).
  apply (gen_antideriv _ (fun t => - / ((t + a) * sqrt (t + a)))).
  - intros t ht. assert (0 < sqrt (t + a)) by (apply sqrt_lt_R0; lra).
    assert (0 < (t + a) * sqrt (t + a)) by (apply Rmult_lt_0_compat; lra). split.
    + auto_derive; [repeat split; lra|]. assert (E : t + a = sqrt (t + a) * sqrt (t + a)) by (symmetry; apply sqrt_sqrt; lra).
      set (s := sqrt (t + a)) in *. rewrite E. field. lra.
    + apply (ex_derive_continuous (K := R_AbsRing) (V := R_NormedModule)). auto_derive. repeat split; try lra. apply Rgt_not_eq. repeat apply Rmult_lt_0_compat; lra.
  - apply (lim_right (fun t => - / ((t + a) * sqrt (t + a))) 0). apply (ex_derive_continuous (K := R_AbsRing) (V := R_NormedModule)). auto_derive.
    assert (0 < sqrt (0 + a)) by (apply sqrt_lt_R0; lra). repeat split; try lra. apply Rgt_not_eq. repeat apply Rmult_lt_0_compat; lra.
  - replace 0 with (0 * 0) by ring. apply (filterlim_ext_loc (fun t => (- / sqrt (t + a)) * / (t + a))).
    { exists 0. intros t ht. assert (0 < sqrt (t + a)) by (apply sqrt_lt_R0; lra). eqR. field. lra. }
    apply (filterlim_comp_2 (G := locally 0) (H := locally 0) (F := oo) (fun t => - / sqrt (t + a)) (fun t => / (t + a)) mult).
    + apply (sqrt_cube_inv_lim 0); auto. intros; lra.
    + assert (L : is_lim (fun t => / (t + a)) p_infty 0).
      { replace (Finite 0) with (Rbar_inv p_infty) by reflexivity. apply (is_lim_inv (fun t => t + a) p_infty p_infty); [|discriminate].
        apply (is_lim_plus (fun t => t) (fun _ => a) p_infty p_infty a p_infty); [apply is_lim_id|apply is_lim_const|reflexivity]. }
      exact L.
    + apply (filterlim_mult 0 0).
Qed.
Lemma prod3_sqrt a b c : 0 <= a -> 0 <= b -> 0 <= c -> sqrt a * sqrt b * sqrt c = sqrt (a * b * c).
Proof. intros. rewrite !sqrt_mult by (try apply Rmult_le_pos; auto). reflexivity. Qed.
Section Bounds.
  Variables x y z : R.
  Hypotheses (hx : 0 <= x) (hy : 0 <= y) (hz : 0 < z).
  Lemma RF_lower l : is_RF x y z l -> / sqrt ((x + y + z) / 3) <= l.
  Proof.
    intros H. set (m := (x + y + z) / 3). assert (hm : 0 < m) by (unfold m; lra).
    apply (gen_le _ _ _ _ (RF_base m hm) H). intros t ht.
    assert (P1 : 0 < (t + x) * (t + y) * (t + z)) by (repeat apply Rmult_lt_0_compat; lra).
    rewrite !prod3_sqrt by lra. apply Rinv_le_contravar.
    - apply Rmult_lt_0_compat; [lra|]. apply sqrt_lt_R0; auto.
    - apply Rmult_le_compat_l; [lra|]. apply sqrt_le_1; [lra|repeat apply Rmult_le_pos; lra|].
      replace (t + m) with ((t + x + (t + y) + (t + z)) / 3) by (unfold m; field).
      assert (0 < t + x) by lra. assert (0 < t + y) by lra. assert (0 < t + z) by lra.
      set (p := t + x) in *. set (q := t + y) in *. set (s := t + z) in *.
      pose proof (Rsq_pos (p - q)). pose proof (Rsq_pos (q - s)). pose proof (Rsq_pos (p - s)).
      assert (0 <= (p + q + s) * ((p - q) * (p - q) + (q - s) * (q - s) + (p - s) * (p - s))) by (apply Rmult_le_pos; lra).
      assert (0 <= p * ((q - s) * (q - s))) by (apply Rmult_le_pos; lra). assert (0 <= q * ((p - s) * (p - s))) by (apply Rmult_le_pos; lra). assert (0 <= s * ((p - q) * (p - q))) by (apply Rmult_le_pos; lra).
      (* (p+q+s)^3 - 27pqs = 1/2 (p+q+s) sum (p-q)^2 + 3 sum p (q-s)^2 *)
      assert (E : (p + q + s) / 3 * ((p + q + s) / 3) * ((p + q + s) / 3) - p * q * s
        = (/ 2 * ((p + q + s) * ((p - q) * (p - q) + (q - s) * (q - s) + (p - s) * (p - s))) + 3 * (p * ((q - s) * (q - s)) + q * ((p - s) * (p - s)) + s * ((p - q) * (p - q)))) / 27) by field.
      lra.
  Qed.
  (** any h with 3h <= e1, 3h^2 <= e2, h^3 <= e3 (e.g. the minimum) *)
  Lemma RF_upper l h : 0 < h -> 3 * h <= x + y + z -> 3 * (h * h) <= x * y + x * z + y * z -> h * h * h <= x * y * z -> is_RF x y z l -> l <= / sqrt h.
  Proof.
    intros hh h1 h2 h3 H. apply (gen_le _ _ _ _ H (RF_base h hh)). intros t ht.
    rewrite !prod3_sqrt by lra. apply Rinv_le_contravar.
    - apply Rmult_lt_0_compat; [lra|]. apply sqrt_lt_R0. repeat apply Rmult_lt_0_compat; lra.
    - apply Rmult_le_compat_l; [lra|]. apply sqrt_le_1; [repeat apply Rmult_le_pos; lra|repeat apply Rmult_le_pos; lra|].
      assert (A1 : 0 <= t * t) by apply Rsq_pos.
      assert (0 <= t * t * (x + y + z - 3 * h)) by (apply Rmult_le_pos; lra).
      assert (0 <= t * (x * y + x * z + y * z - 3 * (h * h))) by (apply Rmult_le_pos; lra).
      assert (E : (t + x) * (t + y) * (t + z) - (t + h) * (t + h) * (t + h) = t * t * (x + y + z - 3 * h) + t * (x * y + x * z + y * z - 3 * (h * h)) + (x * y * z - h * h * h)) by ring. lra.
  Qed.
  Lemma RF_min l a : 0 < a -> a <= x -> a <= y -> a <= z -> is_RF x y z l -> l <= / sqrt a.
  Proof.
    intros ha ax ay az. apply RF_upper; auto; [lra| |].
    - assert (a * a <= x * y) by (apply Rmult_le_compat; lra). assert (a * a <= x * z) by (apply Rmult_le_compat; lra). assert (a * a <= y * z) by (apply Rmult_le_compat; lra). lra.
    - assert (a * a <= x * y) by (apply Rmult_le_compat; lra). apply Rmult_le_compat; auto; nra.
  Qed.
  Lemma RJ_bounds r l a b : 0 < a -> a <= x -> a <= y -> a <= z -> a <= r -> x <= b -> y <= b -> z <= b -> r <= b -> is_RJ x y z r l ->
    / (b * sqrt b) <= l <= / (a * sqrt a).
  Proof.
    intros ha ax ay az ar bx by_ bz br H.
    assert (Q : forall c d e f c' d' e' f', 0 < c -> 0 < d -> 0 < e -> 0 < f -> c <= c' -> d <= d' -> e <= e' -> f <= f' -> 3 / (2 * (sqrt c' * sqrt d' * sqrt e' * f')) <= 3 / (2 * (sqrt c * sqrt d * sqrt e * f))).
    { intros c d e f c' d' e' f' hc hd he hf H1 H2 H3 H4. unfold Rdiv. apply Rmult_le_compat_l; [lra|].
      assert (s1 : 0 < sqrt c) by (apply sqrt_lt_R0; lra). assert (s2 : 0 < sqrt d) by (apply sqrt_lt_R0; lra). assert (s3 : 0 < sqrt e) by (apply sqrt_lt_R0; lra).
      assert (t1 : sqrt c <= sqrt c') by (apply sqrt_le_1; lra). assert (t2 : sqrt d <= sqrt d') by (apply sqrt_le_1; lra). assert (t3 : sqrt e <= sqrt e') by (apply sqrt_le_1; lra).
      apply Rinv_le_contravar; [repeat apply Rmult_lt_0_compat; lra|]. apply Rmult_le_compat_l; [lra|].
      repeat apply Rmult_le_compat; try lra; repeat apply Rmult_le_pos; lra. }
    split.
    - apply (gen_le _ _ _ _ (RJ_base b ltac:(lra)) H). intros t ht. apply Q; lra.
    - apply (gen_le _ _ _ _ H (RJ_base a ha)). intros t ht. apply Q; lra.
  Qed.
End Bounds.
Lemma inv_sqrt_diff a b : 0 < a -> a <= b -> 0 <= / sqrt a - / sqrt b <= (b - a) / (a * sqrt a).
Proof.
  intros ha hb. assert (sa : 0 < sqrt a) by (apply sqrt_lt_R0; lra). assert (sb : 0 < sqrt b) by (apply sqrt_lt_R0; lra).
  assert (H : sqrt a <= sqrt b) by (apply sqrt_le_1; lra).
  assert (Ea : sqrt a * sqrt a = a) by (apply sqrt_sqrt; lra). assert (Eb : sqrt b * sqrt b = b) by (apply sqrt_sqrt; lra).
  assert (E : / sqrt a - / sqrt b = (sqrt b - sqrt a) / (sqrt a * sqrt b)) by (field; lra). rewrite E.
  assert (0 < sqrt a * sqrt b) by (apply Rmult_lt_0_compat; lra).
  split; [apply Rdiv_le_0_compat; lra|].
  replace ((b - a) / (a * sqrt a)) with ((sqrt b - sqrt a) / (sqrt a * sqrt b) * ((sqrt b + sqrt a) * sqrt b / a)).
  2:{ revert sa sb Ea Eb. generalize (sqrt a) (sqrt b). intros u v hu hv <- <-. field. lra. }
  rewrite <- (Rmult_1_r ((sqrt b - sqrt a) / (sqrt a * sqrt b))) at 1. apply Rmult_le_compat_l; [apply Rdiv_le_0_compat; lra|].
  apply (Rmult_le_reg_r a); auto. unfold Rdiv. rewrite Rmult_assoc, Rinv_l, Rmult_1_r, Rmult_1_l by lra. nra.
Qed.
Lemma inv_3half_diff a b : 0 < a -> a <= b -> 0 <= / (a * sqrt a) - / (b * sqrt b) <= 2 * (b - a) / (a * a * sqrt a).
Proof.
  intros ha hb. destruct (inv_sqrt_diff a b ha hb) as [D1 D2].
  assert (sa : 0 < sqrt a) by (apply sqrt_lt_R0; lra). assert (sb : 0 < sqrt b) by (apply sqrt_lt_R0; lra).
  assert (E : / (a * sqrt a) - / (b * sqrt b) = / a * (/ sqrt a - / sqrt b) + (b - a) / (a * b) * / sqrt b) by (field; repeat split; lra).
  rewrite E. assert (0 < / a) by (apply Rinv_0_lt_compat; lra). assert (0 < / sqrt b) by (apply Rinv_0_lt_compat; lra).
  assert (0 <= / a * (/ sqrt a - / sqrt b)) by (apply Rmult_le_pos; lra).
  assert (0 < a * b) by (apply Rmult_lt_0_compat; lra).
  assert (0 <= (b - a) / (a * b)) by (apply Rdiv_le_0_compat; lra).
  split; [assert (0 <= (b - a) / (a * b) * / sqrt b) by (apply Rmult_le_pos; lra); lra|].
  assert (K1 : / a * (/ sqrt a - / sqrt b) <= (b - a) / (a * a * sqrt a)).
  { replace ((b - a) / (a * a * sqrt a)) with (/ a * ((b - a) / (a * sqrt a))) by (field; lra). apply Rmult_le_compat_l; lra. }
  assert (K2 : (b - a) / (a * b) * / sqrt b <= (b - a) / (a * a * sqrt a)).
  { replace ((b - a) / (a * a * sqrt a)) with ((b - a) / (a * a) * / sqrt a) by (field; lra). apply Rmult_le_compat; try lra.
    unfold Rdiv. apply Rmult_le_compat_l; [lra|]. apply Rinv_le_contravar; [nra|]. apply Rmult_le_compat_l; lra. }
  replace (2 * (b - a) / (a * a * sqrt a)) with ((b - a) / (a * a * sqrt a) + (b - a) / (a * a * sqrt a)) by (field; lra). lra.
Qed.

(** polynomial estimates *)
Lemma abs_pow X c e : Rabs X <= e -> Rabs X <= c -> Rabs (X * X) <= c * e /\ Rabs (X * X * X) <= c * c * e /\ Rabs (X * X * X * X) <= c * c * c * e /\ Rabs (X * X * X * X * X) <= c * c * c * c * e.
Proof.
  intros h1 h2. pose proof (Rabs_pos X). assert (0 <= c) by lra. assert (0 <= e) by lra.
  assert (A1 : Rabs (X * X) <= c * e) by (rewrite Rabs_mult; apply Rmult_le_compat; auto).
  assert (A2 : Rabs (X * X * X) <= c * c * e) by (rewrite Rabs_mult; replace (c * c * e) with (c * e * c) by ring; apply Rmult_le_compat; auto; apply Rabs_pos).
  assert (A3 : Rabs (X * X * X * X) <= c * c * c * e) by (rewrite Rabs_mult; replace (c * c * c * e) with (c * c * e * c) by ring; apply Rmult_le_compat; auto; apply Rabs_pos).
  repeat split; auto. rewrite Rabs_mult; replace (c * c * c * c * e) with (c * c * c * e * c) by ring; apply Rmult_le_compat; auto; apply Rabs_pos.
Qed.
Lemma abs_mul a b c e d : Rabs a <= c * e -> Rabs b <= d -> 0 <= d -> Rabs (a * b) <= c * d * e.
Proof. intros. rewrite Rabs_mult. replace (c * d * e) with (c * e * d) by ring. apply Rmult_le_compat; auto; apply Rabs_pos. Qed.
Ltac absb := apply Rabs_le; repeat match goal with H : Rabs _ <= _ |- _ => apply Rabs_le_between in H end; lra.
Lemma rf_poly X Y Z e : Rabs X <= e -> Rabs Y <= e -> Rabs Z <= e -> Rabs X <= 2 -> Rabs Y <= 2 -> Rabs Z <= 2 ->
  let s1 := (X * X + Y * Y + Z * Z) / 4 in let s2 := (X * X * X + Y * Y * Y + Z * Z * Z) / 6 in
  Rabs (s1 / 5 + s2 / 7 + s1 * s1 / 6 + 3 / 11 * s1 * s2 + (5 / 26 * (s1 * s1 * s1) + 3 / 26 * (s2 * s2))) <= 7 * e.
Proof.
  intros. destruct (abs_pow X 2 e H H2) as (X2 & X3 & _). destruct (abs_pow Y 2 e H0 H3) as (Y2 & Y3 & _). destruct (abs_pow Z 2 e H1 H4) as (Z2 & Z3 & _).
  destruct (abs_pow X 2 2 H2 H2) as (XX2 & XX3 & _). destruct (abs_pow Y 2 2 H3 H3) as (YY2 & YY3 & _). destruct (abs_pow Z 2 2 H4 H4) as (ZZ2 & ZZ3 & _).
  assert (S1 : Rabs s1 <= (3 / 2) * e) by (unfold s1; absb). assert (S2 : Rabs s2 <= 2 * e) by (unfold s2; absb).
  assert (S1' : Rabs s1 <= 3) by (unfold s1; absb). assert (S2' : Rabs s2 <= 4) by (unfold s2; absb).
  pose proof (abs_mul s1 s1 (3 / 2) e 3 S1 S1' ltac:(lra)) as S11. pose proof (abs_mul s1 s2 (3 / 2) e 4 S1 S2' ltac:(lra)) as S12.
  pose proof (abs_mul (s1 * s1) s1 _ e 3 S11 S1' ltac:(lra)) as S111. pose proof (abs_mul s2 s2 2 e 4 S2 S2' ltac:(lra)) as S22.
  rewrite (Rmult_assoc (3 / 11)).
  clearbody s1 s2. clear -S1 S2 S11 S12 S111 S22. assert (0 <= e) by (pose proof (Rabs_pos s1); lra). revert S11 S12 S111 S22.
  generalize (s1 * s1 * s1). generalize (s1 * s1). generalize (s1 * s2). generalize (s2 * s2). intros. absb.
Qed.
Lemma rc_poly s e : Rabs s <= e -> Rabs s <= 1 ->
  Rabs (3 / 10 * (s * s) + s * s * s / 7 + 3 / 8 * (s * s * s * s) + 9 / 22 * (s * s * s * s * s) + 159 / 208 * (s * s * s * s * s * s)) <= 2 * e.
Proof.
  intros H H1. destruct (abs_pow s 1 e H H1) as (S2 & S3 & S4 & S5).
  assert (S6 : Rabs (s * s * s * s * s * s) <= 1 * e).
  { rewrite Rabs_mult. replace (1 * e) with (1 * 1 * 1 * 1 * e * 1) by ring. apply Rmult_le_compat; auto; apply Rabs_pos. }
  assert (0 <= e) by (pose proof (Rabs_pos s); lra). revert S2 S3 S4 S5 S6. generalize (s * s * s * s * s * s). generalize (s * s * s * s * s). generalize (s * s * s * s). generalize (s * s * s). generalize (s * s). intros. absb.
Qed.
Lemma rj_poly X Y Z W e : Rabs X <= e -> Rabs Y <= e -> Rabs Z <= e -> Rabs W <= e -> Rabs X <= 4 -> Rabs Y <= 4 -> Rabs Z <= 4 -> Rabs W <= 4 ->
  let s1 := (X * X + Y * Y + Z * Z + 2 * (W * W)) / 4 in let s2 := (X * X * X + Y * Y * Y + Z * Z * Z + 2 * (W * W * W)) / 6 in
  let s3 := (X * X * X * X + Y * Y * Y * Y + Z * Z * Z * Z + 2 * (W * W * W * W)) / 8 in
  let s4 := (X * X * X * X * X + Y * Y * Y * Y * Y + Z * Z * Z * Z * Z + 2 * (W * W * W * W * W)) / 10 in
  Rabs (3 / 7 * s1 + s2 / 3 + 3 / 22 * (s1 * s1) + 3 / 11 * s3 + 3 / 13 * (s1 * s2 + s4) + (-1 / 10 * (s1 * s1 * s1) + 3 / 10 * (s2 * s2) + 3 / 5 * s1 * s3)) <= 1100 * e.
Proof.
  intros HX HY HZ HW KX KY KZ KW s1 s2 s3 s4.
  destruct (abs_pow X 4 e HX KX) as (X2 & X3 & X4 & X5). destruct (abs_pow Y 4 e HY KY) as (Y2 & Y3 & Y4 & Y5). destruct (abs_pow Z 4 e HZ KZ) as (Z2 & Z3 & Z4 & Z5). destruct (abs_pow W 4 e HW KW) as (W2 & W3 & W4 & W5).
  destruct (abs_pow X 4 4 KX KX) as (XX2 & XX3 & _). destruct (abs_pow Y 4 4 KY KY) as (YY2 & YY3 & _). destruct (abs_pow Z 4 4 KZ KZ) as (ZZ2 & ZZ3 & _). destruct (abs_pow W 4 4 KW KW) as (WW2 & WW3 & _).
  assert (S1 : Rabs s1 <= 5 * e) by (unfold s1; absb). assert (S2 : Rabs s2 <= 14 * e) by (unfold s2; assert (0 <= e) by (pose proof (Rabs_pos X); lra); absb).
  assert (S3 : Rabs s3 <= 40 * e) by (unfold s3; absb). assert (S4 : Rabs s4 <= 128 * e) by (unfold s4; absb).
  assert (S1' : Rabs s1 <= 20) by (unfold s1; absb). assert (S2' : Rabs s2 <= 54) by (unfold s2; absb).
  pose proof (abs_mul s1 s1 5 e 20 S1 S1' ltac:(lra)) as S11. pose proof (abs_mul s2 s1 14 e 20 S2 S1' ltac:(lra)) as S12. rewrite (Rmult_comm s2) in S12.
  pose proof (abs_mul (s1 * s1) s1 _ e 20 S11 S1' ltac:(lra)) as S111. pose proof (abs_mul s2 s2 14 e 54 S2 S2' ltac:(lra)) as S22. pose proof (abs_mul s3 s1 40 e 20 S3 S1' ltac:(lra)) as S13. rewrite (Rmult_comm s3) in S13.
  rewrite (Rmult_assoc (3 / 5)).
  clearbody s1 s2 s3 s4. clear -S1 S2 S3 S4 S11 S12 S111 S22 S13. assert (0 <= e) by (pose proof (Rabs_pos s1); lra). revert S11 S12 S111 S22 S13.
  generalize (s1 * s1 * s1). generalize (s1 * s1). generalize (s1 * s2). generalize (s2 * s2). generalize (s1 * s3). intros. absb.
Qed.
