(** * Properties of VortexDoublet.py: C63-C65 *)
From Coquelicot Require Import Coquelicot.
From Coq Require Import ZArith List Bool Arith Lia String Reals Lra Psatz.
From Verif Require Import Num NumR NumX M_Cylinder M_Doublet L_List L_X Spec SpecBS L_Calc L_Ell P_Line.
Import ListNotations.
Local Open Scope R_scope.

(** the quadratic under the documented integrals, and the documented integrands *)
Definition qq (a b c x : R) : R := a ^ 2 - 2 * b * x + c ^ 2 * x ^ 2.
Definition int30 (a b c x : R) : R := 1 / sqrt (qq a b c x) ^ 3.
Definition int50 (a b c x : R) : R := 3 * (1 / sqrt (qq a b c x) ^ 5).
Definition int51 (a b c x : R) : R := 3 * (x / sqrt (qq a b c x) ^ 5).
Definition int52 (a b c x : R) : R := 3 * (x ^ 2 / sqrt (qq a b c x) ^ 5).

Section Antideriv.
  Variables a b c : R.
  Let q := qq a b c.
  Let De := b * b - a * a * (c * c).
  (** derivative of P/(K w^3), w = sqrt q *)
  Lemma der_w3 (P : R -> R) K x p' : K <> 0 -> 0 < q x -> is_derive P x p' ->
    is_derive (fun x => P x / (K * (q x * sqrt (q x)))) x ((p' * q x - 3/2 * P x * (2 * c ^ 2 * x - 2 * b)) / K / sqrt (q x) ^ 5).
  Proof.
    intros HK Q DP. assert (S : 0 < sqrt (q x)) by (apply sqrt_lt_R0; auto). assert (SS : sqrt (q x) * sqrt (q x) = q x) by (apply sqrt_sqrt; lra).
    assert (EX : ex_derive P x) by (exists p'; auto).
    assert (DE : Derive P x = p') by (apply is_derive_unique; auto).
    assert (HW : K * (q x * sqrt (q x)) <> 0) by (apply Rmult_integral_contrapositive_currified; auto; apply Rgt_not_eq, Rmult_lt_0_compat; auto).
    unfold q, qq in *. auto_derive.
    - repeat split; auto.
      + replace (a * (a * 1) + - (2 * b * x) + c * (c * 1) * (x * (x * 1))) with (a ^ 2 - 2 * b * x + c ^ 2 * x ^ 2) by ring. auto.
      + replace (a * (a * 1) + - (2 * b * x) + c * (c * 1) * (x * (x * 1))) with (a ^ 2 - 2 * b * x + c ^ 2 * x ^ 2) by ring. auto.
    - change (fun x0 : R => P x0) with P. rewrite DE.
      replace (a * (a * 1) + - (2 * b * x) + c * (c * 1) * (x * (x * 1))) with (a ^ 2 - 2 * b * x + c ^ 2 * x ^ 2) by ring.
      set (w := sqrt (a ^ 2 - 2 * b * x + c ^ 2 * x ^ 2)) in *. rewrite <- SS. field. split; lra.
  Qed.
  Lemma der_w1 (P : R -> R) K x p' : K <> 0 -> 0 < q x -> is_derive P x p' ->
    is_derive (fun x => P x / (K * sqrt (q x))) x ((p' * q x - 1/2 * P x * (2 * c ^ 2 * x - 2 * b)) / K / sqrt (q x) ^ 3).
  Proof.
    intros HK Q DP. assert (S : 0 < sqrt (q x)) by (apply sqrt_lt_R0; auto). assert (SS : sqrt (q x) * sqrt (q x) = q x) by (apply sqrt_sqrt; lra).
    assert (EX : ex_derive P x) by (exists p'; auto).
    assert (DE : Derive P x = p') by (apply is_derive_unique; auto).
    assert (HW : K * sqrt (q x) <> 0) by (apply Rmult_integral_contrapositive_currified; auto; lra).
    unfold q, qq in *. auto_derive.
    - replace (a * (a * 1) + - (2 * b * x) + c * (c * 1) * (x * (x * 1))) with (a ^ 2 - 2 * b * x + c ^ 2 * x ^ 2) by ring. repeat split; auto.
    - change (fun x0 : R => P x0) with P. rewrite DE.
      replace (a * (a * 1) + - (2 * b * x) + c * (c * 1) * (x * (x * 1))) with (a ^ 2 - 2 * b * x + c ^ 2 * x ^ 2) by ring.
      set (w := sqrt (a ^ 2 - 2 * b * x + c ^ 2 * x ^ 2)) in *. rewrite <- SS. field. split; lra.
  Qed.
  (** the antiderivatives of the code *)
  Definition N30 x := (b - c * c * x) / (De * sqrt (q x)).
  (** the true antiderivative has 3 c^2(b^2+a^2c^2) x where the code (VortexDoublet.py:345) has 2 c^2(..) x *)
  Definition P50 x := b * (b * b - 3 * (a * a) * (c * c)) + 3 * (c * c) * (b * b + a * a * (c * c)) * x - 6 * b * (c * c * (c * c)) * (x * x) + 2 * (c * c * c * (c * c * c)) * (x * x * x).
  Definition P51 x := - (a * a) * (b * b + a * a * (c * c)) + 3 * b * (b * b + a * a * (c * c)) * x - 6 * (b * b) * (c * c) * (x * x) + 2 * b * (c * c * (c * c)) * (x * x * x).
  Definition P52 x := - (2) * (a * a * (a * a)) * b + 6 * (a * a) * (b * b) * x - 3 * b * (b * b + a * a * (c * c)) * (x * x) + c * c * (b * b + a * a * (c * c)) * (x * x * x).
  Definition N5 (P : R -> R) x := P x / (De * De * (q x * sqrt (q x))).
  Lemma d30 x : De <> 0 -> 0 < q x -> is_derive N30 x (int30 a b c x).
  Proof.
    intros HD Q. assert (S : 0 < sqrt (q x)) by (apply sqrt_lt_R0; auto).
    assert (D := der_w1 (fun x => b - c * c * x) De x (- (c * c)) HD Q ltac:(auto_derive; [auto|ring])).
    unfold int30. replace (1 / sqrt (qq a b c x) ^ 3) with ((- (c * c) * q x - 1 / 2 * (b - c * c * x) * (2 * c ^ 2 * x - 2 * b)) / De / sqrt (q x) ^ 3); [exact D|].
    replace (- (c * c) * q x - 1 / 2 * (b - c * c * x) * (2 * c ^ 2 * x - 2 * b)) with De by (unfold De, q, qq; field). fold (q x). field. split; lra.
  Qed.
  Lemma d5 (P : R -> R) p' n x : De <> 0 -> 0 < q x -> is_derive P x p' -> p' * q x - 3/2 * P x * (2 * c ^ 2 * x - 2 * b) = 3 * n * (De * De) ->
    is_derive (N5 P) x (3 * (n / sqrt (q x) ^ 5)).
  Proof.
    intros HD Q DP E. assert (S : 0 < sqrt (q x)) by (apply sqrt_lt_R0; auto).
    assert (HD2 : De * De <> 0) by (apply Rmult_integral_contrapositive_currified; auto).
    assert (D := der_w3 P (De * De) x p' HD2 Q DP). rewrite E in D.
    replace (3 * (n / sqrt (q x) ^ 5)) with (3 * n * (De * De) / (De * De) / sqrt (q x) ^ 5); [exact D|]. field. split; lra.
  Qed.
  Lemma d50 x : De <> 0 -> 0 < q x -> is_derive (N5 P50) x (int50 a b c x).
  Proof.
    intros HD Q. apply (d5 P50 (3 * (c * c) * (b * b + a * a * (c * c)) - 12 * b * (c * c * (c * c)) * x + 6 * (c * c * c * (c * c * c)) * (x * x))); auto.
    - unfold P50. auto_derive; [auto|ring].
    - unfold P50, De, q, qq. field.
  Qed.
  Lemma d51 x : De <> 0 -> 0 < q x -> is_derive (N5 P51) x (int51 a b c x).
  Proof.
    intros HD Q. apply (d5 P51 (3 * b * (b * b + a * a * (c * c)) - 12 * (b * b) * (c * c) * x + 6 * b * (c * c * (c * c)) * (x * x))); auto.
    - unfold P51. auto_derive; [auto|ring].
    - unfold P51, De, q, qq. field.
  Qed.
  Lemma d52 x : De <> 0 -> 0 < q x -> is_derive (N5 P52) x (int52 a b c x).
  Proof.
    intros HD Q. apply (d5 P52 (6 * (a * a) * (b * b) - 6 * b * (b * b + a * a * (c * c)) * x + 3 * (c * c) * (b * b + a * a * (c * c)) * (x * x))); auto.
    - unfold P52. auto_derive; [auto|ring].
    - unfold P52, De, q, qq. field.
  Qed.
  Lemma c_int (n : R -> R) k x : (ex_derive n x) -> 0 < q x -> continuous (fun x => n x / sqrt (q x) ^ k) x.
  Proof.
    intros HN Q. assert (S : 0 < sqrt (q x)) by (apply sqrt_lt_R0; auto).
    apply (ex_derive_continuous (fun x => n x / sqrt (q x) ^ k)). unfold q, qq in *. auto_derive.
    replace (a * (a * 1) + - (2 * b * x) + c * (c * 1) * (x * (x * 1))) with (a ^ 2 - 2 * b * x + c ^ 2 * x ^ 2) by ring.
    repeat split; auto. apply pow_nonzero. lra.
  Qed.
  Lemma c30 x : 0 < q x -> continuous (int30 a b c) x.
  Proof. intros. apply (c_int (fun _ => 1) 3); auto. auto_derive; auto. Qed.
  Lemma c50 x : 0 < q x -> continuous (int50 a b c) x.
  Proof. intros. apply (continuous_scal_r 3 (fun x => 1 / sqrt (q x) ^ 5)). apply (c_int (fun _ => 1) 5); auto. auto_derive; auto. Qed.
  Lemma c51 x : 0 < q x -> continuous (int51 a b c) x.
  Proof. intros. apply (continuous_scal_r 3 (fun x => x / sqrt (q x) ^ 5)). apply (c_int (fun x => x) 5); auto. auto_derive; auto. Qed.
  Lemma c52 x : 0 < q x -> continuous (int52 a b c) x.
  Proof. intros. apply (continuous_scal_r 3 (fun x => x ^ 2 / sqrt (q x) ^ 5)). apply (c_int (fun x => x ^ 2) 5); auto. auto_derive; auto. Qed.
End Antideriv.

(** limits at infinity through y = 1/x *)
Lemma lim_via_inv (F g : R -> R) : (forall x, 0 < x -> F x = g (/ x)) -> continuous g 0 -> is_lim F p_infty (g 0).
Proof.
  intros E C. apply is_lim_ext_loc with (fun x => g (/ x)).
  - exists 0. intros x Hx. symmetry. auto.
  - apply (is_lim_comp_continuous (fun x => / x) g p_infty 0); auto.
    apply is_lim_ext with (fun s => 1 / s); [intros; unfold Rdiv; ring|apply lim_inv_p].
Qed.
Section Limits.
  Variables a b c : R.
  Hypothesis Hc : 0 < c.
  Hypothesis Q : forall x, 0 <= x -> 0 < qq a b c x.
  Let h y := a ^ 2 * y ^ 2 - 2 * b * y + c ^ 2.
  Lemma q_h x : 0 < x -> qq a b c x = x * x * h (/ x) /\ sqrt (qq a b c x) = x * sqrt (h (/ x)) /\ 0 < h (/ x).
  Proof.
    intros Hx. assert (E : qq a b c x = x * x * h (/ x)) by (unfold qq, h; field; lra).
    assert (P : 0 < h (/ x)). { pose proof (Q x ltac:(lra)) as Q1. rewrite E in Q1. pose proof (Rsq_lt x ltac:(lra)).
      destruct (Rlt_dec 0 (h (/ x))); auto. exfalso. assert (x * x * h (/ x) <= x * x * 0) by (apply Rmult_le_compat_l; lra). lra. }
    split; auto. split; auto. rewrite E. rewrite sqrt_mult, sqrt_square by (try (pose proof (Rsq_lt x ltac:(lra))); lra). reflexivity.
  Qed.
  Lemma h0 : h 0 = c * c.
  Proof. unfold h. ring. Qed.
  Lemma lim5 K p0 p1 p2 p3 : K <> 0 ->
    is_lim (fun x => (p0 + p1 * x + p2 * (x * x) + p3 * (x * x * x)) / (K * (qq a b c x * sqrt (qq a b c x)))) p_infty (p3 / (K * (c * c * c))).
  Proof.
    intros HK. pose proof (Rsq_lt c ltac:(lra)) as C2.
    pose (g := fun y => (p3 + p2 * y + p1 * (y * y) + p0 * (y * y * y)) / (K * (h y * sqrt (h y)))).
    replace (p3 / (K * (c * c * c))) with (g 0).
    - apply (lim_via_inv _ g); unfold g.
      + intros x Hx. destruct (q_h x Hx) as (E1 & E2 & E3). rewrite E2, E1. assert (0 < sqrt (h (/ x))) by (apply sqrt_lt_R0; auto).
        field. repeat split; lra.
      + apply (ex_derive_continuous (fun y => (p3 + p2 * y + p1 * (y * y) + p0 * (y * y * y)) / (K * (h y * sqrt (h y))))).
        pose proof h0 as H0. unfold h in *. auto_derive.
        match goal with |- 0 < ?e /\ _ => assert (EE : e = c * c) by ring end. rewrite EE, sqrt_square by lra.
        repeat split; auto. apply Rmult_integral_contrapositive_currified; auto. apply Rgt_not_eq, Rmult_lt_0_compat; lra.
    - unfold g. rewrite h0, sqrt_square by lra. field. split; lra.
  Qed.
  Lemma lim3 K p0 p1 : K <> 0 -> is_lim (fun x => (p0 + p1 * x) / (K * sqrt (qq a b c x))) p_infty (p1 / (K * c)).
  Proof.
    intros HK. pose proof (Rsq_lt c ltac:(lra)) as C2.
    pose (g := fun y => (p1 + p0 * y) / (K * sqrt (h y))).
    replace (p1 / (K * c)) with (g 0).
    - apply (lim_via_inv _ g); unfold g.
      + intros x Hx. destruct (q_h x Hx) as (E1 & E2 & E3). rewrite E2. assert (0 < sqrt (h (/ x))) by (apply sqrt_lt_R0; auto).
        field. repeat split; lra.
      + apply (ex_derive_continuous (fun y => (p1 + p0 * y) / (K * sqrt (h y)))).
        pose proof h0 as H0. unfold h in *. auto_derive.
        match goal with |- 0 < ?e /\ _ => assert (EE : e = c * c) by ring end. rewrite EE, sqrt_square by lra.
        repeat split; auto. apply Rmult_integral_contrapositive_currified; auto. lra.
    - unfold g. rewrite h0, sqrt_square by lra. field. split; lra.
  Qed.
End Limits.

(** the degenerate quadratic q = (a - s c x)^2, s = 1 or -1 *)
Section Sing.
  Variables a c s : R.
  Hypothesis Hc : 0 < c.
  Hypothesis Hs : s * s = 1.
  Let w x := a - s * c * x.
  Definition S30 x := s / (2 * c * (w x * w x)).
  Definition S50 x := 3 * s / (4 * c * (w x * w x * (w x * w x))).
  Definition S51 x := - 3 * (a - s * 4 * c * x) / (12 * (c * c) * (w x * w x * (w x * w x))).
  Definition S52 x := 3 * s * (a * a - s * 4 * a * c * x + 6 * (c * c) * (x * x)) / (12 * (c * c * c) * (w x * w x * (w x * w x))).
  Lemma w_sqrt x : 0 < w x -> qq a (s * a * c) c x = w x * w x /\ sqrt (qq a (s * a * c) c x) = w x.
  Proof.
    intros W. assert (E : qq a (s * a * c) c x = w x * w x).
    { unfold qq, w. replace (c ^ 2 * x ^ 2) with (s * s * (c ^ 2 * x ^ 2)) by (rewrite Hs; ring). ring. }
    split; auto. rewrite E. apply sqrt_square. lra.
  Qed.
  Lemma dS x : 0 < w x -> is_derive S30 x (int30 a (s * a * c) c x) /\ is_derive S50 x (int50 a (s * a * c) c x) /\
                         is_derive S51 x (int51 a (s * a * c) c x) /\ is_derive S52 x (int52 a (s * a * c) c x).
  Proof.
    intros W. destruct (w_sqrt x W) as [E1 E2]. unfold int30, int50, int51, int52. rewrite E2. unfold S30, S50, S51, S52, w in *.
    assert (HD2 : 2 * c * ((a + - (s * c * x)) * (a + - (s * c * x))) <> 0) by (apply Rgt_not_eq; repeat apply Rmult_lt_0_compat; lra).
    assert (HD4 : 4 * c * ((a + - (s * c * x)) * (a + - (s * c * x)) * ((a + - (s * c * x)) * (a + - (s * c * x)))) <> 0) by (apply Rgt_not_eq; repeat apply Rmult_lt_0_compat; lra).
    assert (HD5 : 12 * (c * c) * ((a + - (s * c * x)) * (a + - (s * c * x)) * ((a + - (s * c * x)) * (a + - (s * c * x)))) <> 0) by (apply Rgt_not_eq; repeat apply Rmult_lt_0_compat; lra).
    assert (HD6 : 12 * (c * c * c) * ((a + - (s * c * x)) * (a + - (s * c * x)) * ((a + - (s * c * x)) * (a + - (s * c * x)))) <> 0) by (apply Rgt_not_eq; repeat apply Rmult_lt_0_compat; lra).
    assert (Hw : a - s * c * x <> 0) by lra.
    split; [|split; [|split]]; auto_derive; auto.
    - transitivity (s * s * (1 / (a - s * c * x) ^ 3)); [field; lra|rewrite Hs; field; lra].
    - transitivity (s * s * (3 * (1 / (a - s * c * x) ^ 5))); [field; lra|rewrite Hs; field; lra].
    - transitivity (s * s * (3 * (x / (a - s * c * x) ^ 5))); [field; lra|rewrite Hs; field; lra].
    - transitivity (3 * (x ^ 2 / (a - s * c * x) ^ 5) * (s * s) + (1 - s * s) * (3 * s * a * x / c / (a - s * c * x) ^ 5)); [field; lra|rewrite Hs; field; lra].
  Qed.
  Lemma limS K p0 p1 p2 : K <> 0 -> s = - (1) -> 0 < a -> is_lim (fun x => (p0 + p1 * x + p2 * (x * x)) / (K * (w x * w x * (w x * w x)))) p_infty 0.
  Proof.
    intros HK -> Ha.
    pose (g := fun y => (p0 * (y * y * (y * y)) + p1 * (y * y * y) + p2 * (y * y)) / (K * ((a * y + c) * (a * y + c) * ((a * y + c) * (a * y + c))))).
    match goal with |- is_lim ?F _ _ => cut (is_lim F p_infty (g 0)) end; [replace (g 0) with 0 by (unfold g; field; split; lra); auto|].
    apply (lim_via_inv _ g); unfold g, w.
    - intros x Hx. assert (0 < c * x) by (apply Rmult_lt_0_compat; lra). field. repeat split; lra.
    - apply (ex_derive_continuous (fun y => (p0 * (y * y * (y * y)) + p1 * (y * y * y) + p2 * (y * y)) / (K * ((a * y + c) * (a * y + c) * ((a * y + c) * (a * y + c)))))).
      auto_derive. rewrite Rmult_0_r, Rplus_0_l. apply Rmult_integral_contrapositive_currified; auto.
      apply Rgt_not_eq; repeat apply Rmult_lt_0_compat; lra.
  Qed.
End Sing.

Section Improper.
  Variables a b c : R.
  Hypothesis Ha : 0 < a.
  Hypothesis Hc : 0 < c.
  Hypothesis Hb : b < a * c.
  Lemma qpos x : 0 <= x -> 0 < qq a b c x.
  Proof.
    intros Hx. replace (qq a b c x) with ((a - c * x) * (a - c * x) + 2 * (x * (a * c - b))) by (unfold qq; ring).
    pose proof (Rsq_pos (a - c * x)). destruct Hx as [Hx|Hx].
    - assert (0 < x * (a * c - b)) by (apply Rmult_lt_0_compat; lra). lra.
    - subst x. replace (a - c * 0) with a by ring. rewrite Rmult_0_l. pose proof (Rsq_lt a ltac:(lra)). lra.
  Qed.
  Lemma q0 : qq a b c 0 = a * a /\ sqrt (qq a b c 0) = a.
  Proof. assert (E : qq a b c 0 = a * a) by (unfold qq; ring). split; auto. rewrite E. apply sqrt_square. lra. Qed.
  Definition over_half_line (f : R -> R) (v : R) := is_RInt_gen f (at_point 0) (Rbar_locally p_infty) v.
  Lemma improper_all :
    over_half_line (int30 a b c) (1 / (a * (a * c - b))) /\
    over_half_line (int50 a b c) ((2 * a * c - b) / (a * a * a * ((a * c - b) * (a * c - b)))) /\
    over_half_line (int51 a b c) (1 / (a * ((a * c - b) * (a * c - b)))) /\
    over_half_line (int52 a b c) (1 / (c * ((a * c - b) * (a * c - b)))).
  Proof.
    destruct q0 as [Q0 Q1]. unfold over_half_line. pose proof qpos as Qp.
    destruct (Req_dec (b * b - a * a * (c * c)) 0) as [HD|HD].
    - assert (Eb : b = - (1) * a * c).
      { assert (F : (b - a * c) * (b + a * c) = 0) by (rewrite <- HD; ring). destruct (Rmult_integral _ _ F); lra. }
      assert (Hs : - (1) * - (1) = 1) by ring. pose proof (Rmult_lt_0_compat a c Ha Hc) as Hac.
      assert (W : forall x, 0 <= x -> 0 < a - - (1) * c * x) by (intros x Hx; pose proof (Rmult_le_pos c x ltac:(lra) Hx); lra).
      rewrite Eb in *. clear Eb.
      pose proof (fun x Hx => dS a c (- (1)) Hc Hs x (W x Hx)) as D.
      pose proof (fun K p0 p1 p2 HK => limS a c (- (1)) Hc Hs K p0 p1 p2 HK eq_refl Ha) as L.
      split; [|split; [|split]].
      + replace (1 / (a * (a * c - - (1) * a * c))) with (0 - S30 a c (- (1)) 0) by (unfold S30; field; split; lra).
        apply improper_antideriv; [intros x Hx; apply (D x Hx)|intros x Hx; apply c30, Qp; auto|].
        apply is_lim_ext_loc with (fun x => (- (a * a) + - (2 * a * c) * x + - (c * c) * (x * x)) / (2 * c * ((a - - (1) * c * x) * (a - - (1) * c * x) * ((a - - (1) * c * x) * (a - - (1) * c * x))))).
        * exists 0. intros x Hx. unfold S30. pose proof (W x ltac:(lra)). field. split; lra.
        * apply L. lra.
      + replace ((2 * a * c - - (1) * a * c) / (a * a * a * ((a * c - - (1) * a * c) * (a * c - - (1) * a * c)))) with (0 - S50 a c (- (1)) 0) by (unfold S50; field; split; lra).
        apply improper_antideriv; [intros x Hx; apply (D x Hx)|intros x Hx; apply c50, Qp; auto|].
        apply is_lim_ext with (fun x => (- (3) + 0 * x + 0 * (x * x)) / (4 * c * ((a - - (1) * c * x) * (a - - (1) * c * x) * ((a - - (1) * c * x) * (a - - (1) * c * x))))).
        * intros x. unfold S50. f_equal. ring.
        * apply L. lra.
      + replace (1 / (a * ((a * c - - (1) * a * c) * (a * c - - (1) * a * c)))) with (0 - S51 a c (- (1)) 0) by (unfold S51; field; split; lra).
        apply improper_antideriv; [intros x Hx; apply (D x Hx)|intros x Hx; apply c51, Qp; auto|].
        apply is_lim_ext with (fun x => (- 3 * a + - 3 * (4 * c) * x + 0 * (x * x)) / (12 * (c * c) * ((a - - (1) * c * x) * (a - - (1) * c * x) * ((a - - (1) * c * x) * (a - - (1) * c * x))))).
        * intros x. unfold S51. f_equal. ring.
        * apply L. apply Rgt_not_eq; repeat apply Rmult_lt_0_compat; lra.
      + replace (1 / (c * ((a * c - - (1) * a * c) * (a * c - - (1) * a * c)))) with (0 - S52 a c (- (1)) 0) by (unfold S52; field; split; lra).
        apply improper_antideriv; [intros x Hx; apply (D x Hx)|intros x Hx; apply c52, Qp; auto|].
        apply is_lim_ext with (fun x => (- (3) * (a * a) + - (12) * a * c * x + - (18) * (c * c) * (x * x)) / (12 * (c * c * c) * ((a - - (1) * c * x) * (a - - (1) * c * x) * ((a - - (1) * c * x) * (a - - (1) * c * x))))).
        * intros x. unfold S52. f_equal. ring.
        * apply L. apply Rgt_not_eq; repeat apply Rmult_lt_0_compat; lra.
    - assert (HD2 : (b * b - a * a * (c * c)) * (b * b - a * a * (c * c)) <> 0) by (apply Rmult_integral_contrapositive_currified; auto).
      assert (F : b * b - a * a * (c * c) = (b - a * c) * (b + a * c)) by ring.
      assert (Hbp : b + a * c <> 0) by (intros E; rewrite E, Rmult_0_r in F; lra).
      split; [|split; [|split]].
      + replace (1 / (a * (a * c - b))) with (- (c * c) / ((b * b - a * a * (c * c)) * c) - N30 a b c 0).
        * apply improper_antideriv; [intros x Hx; apply d30; auto; apply qpos; auto|intros x Hx; apply c30, qpos; auto|].
          apply is_lim_ext with (fun x => (b + - (c * c) * x) / ((b * b - a * a * (c * c)) * sqrt (qq a b c x))); [intros x; unfold N30; f_equal; ring|].
          apply lim3; auto.
        * unfold N30. rewrite Q1, F. field. repeat split; lra.
      + replace ((2 * a * c - b) / (a * a * a * ((a * c - b) * (a * c - b)))) with (2 * (c * c * c * (c * c * c)) / ((b * b - a * a * (c * c)) * (b * b - a * a * (c * c)) * (c * c * c)) - N5 a b c (P50 a b c) 0).
        * apply improper_antideriv; [intros x Hx; apply d50; auto; apply qpos; auto|intros x Hx; apply c50, qpos; auto|].
          eapply is_lim_ext; [|apply (lim5 a b c Hc qpos _ (b * (b * b - 3 * (a * a) * (c * c))) (3 * (c * c) * (b * b + a * a * (c * c))) (- (6 * b * (c * c * (c * c)))) (2 * (c * c * c * (c * c * c))) HD2)].
          intros x. unfold N5, P50. cbn beta. f_equal. ring.
        * unfold N5, P50. rewrite Q1, Q0, F. field. repeat split; lra.
      + replace (1 / (a * ((a * c - b) * (a * c - b)))) with (2 * b * (c * c * (c * c)) / ((b * b - a * a * (c * c)) * (b * b - a * a * (c * c)) * (c * c * c)) - N5 a b c (P51 a b c) 0).
        * apply improper_antideriv; [intros x Hx; apply d51; auto; apply qpos; auto|intros x Hx; apply c51, qpos; auto|].
          eapply is_lim_ext; [|apply (lim5 a b c Hc qpos _ (- (a * a) * (b * b + a * a * (c * c))) (3 * b * (b * b + a * a * (c * c))) (- (6 * (b * b) * (c * c))) (2 * b * (c * c * (c * c))) HD2)].
          intros x. unfold N5, P51. cbn beta. f_equal. ring.
        * unfold N5, P51. rewrite Q1, Q0, F. field. repeat split; lra.
      + replace (1 / (c * ((a * c - b) * (a * c - b)))) with (c * c * (b * b + a * a * (c * c)) / ((b * b - a * a * (c * c)) * (b * b - a * a * (c * c)) * (c * c * c)) - N5 a b c (P52 a b c) 0).
        * apply improper_antideriv; [intros x Hx; apply d52; auto; apply qpos; auto|intros x Hx; apply c52, qpos; auto|].
          eapply is_lim_ext; [|apply (lim5 a b c Hc qpos _ (- (2) * (a * a * (a * a)) * b) (6 * (a * a) * (b * b)) (- (3 * b * (b * b + a * a * (c * c)))) (c * c * (b * b + a * a * (c * c))) HD2)].
          intros x. unfold N5, P52. cbn beta. f_equal. ring.
        * unfold N5, P52. rewrite Q1, Q0, F. field. repeat split; lra.
  Qed.
End Improper.

(** ** C63 *)
Theorem C63_semi_infinite_integrals :
  forall a b c, 0 < a -> 0 < c -> b < a * c ->
  exists v30 v50 v51 v52,
    I30 (N := XN) (Fin a) (Fin b) (Fin c) = Fin v30 /\ over_half_line (fun x => 1 / sqrt (a^2 - 2*b*x + c^2*x^2) ^ 3) v30 /\
    tI50 (N := XN) (Fin a) (Fin b) (Fin c) = Fin v50 /\ over_half_line (fun x => 3 * (1 / sqrt (a^2 - 2*b*x + c^2*x^2) ^ 5)) v50 /\
    tI51 (N := XN) (Fin a) (Fin b) (Fin c) = Fin v51 /\ over_half_line (fun x => 3 * (x / sqrt (a^2 - 2*b*x + c^2*x^2) ^ 5)) v51 /\
    tI52 (N := XN) (Fin a) (Fin b) (Fin c) = Fin v52 /\ over_half_line (fun x => 3 * (x^2 / sqrt (a^2 - 2*b*x + c^2*x^2) ^ 5)) v52.
Proof.
  intros a b c Ha Hc Hb. destruct (improper_all a b c Ha Hc Hb) as (H0 & H1 & H2 & H3).
  eexists _, _, _, _.
  assert (0 < (a * c - b) * (a * c - b)) by (apply Rmult_lt_0_compat; lra).
  assert (D1 : a * (a * c - b) <> 0) by (apply Rgt_not_eq, Rmult_lt_0_compat; lra).
  assert (D2 : a * a * a * ((a * c - b) * (a * c - b)) <> 0) by (apply Rgt_not_eq; repeat apply Rmult_lt_0_compat; lra).
  assert (D3 : a * ((a * c - b) * (a * c - b)) <> 0) by (apply Rgt_not_eq; repeat apply Rmult_lt_0_compat; lra).
  assert (D4 : c * ((a * c - b) * (a * c - b)) <> 0) by (apply Rgt_not_eq; repeat apply Rmult_lt_0_compat; lra).
  unfold I30, tI50, tI51, tI52. xn. rewrite !xdiv_fin by auto.
  repeat split; eassumption.
Qed.
Example C63_semi_infinite_nonvacuous : 0 < 2 /\ 0 < 1 /\ 1 < 2 * 1.
Proof. lra. Qed.

(** values on a finite segment *)
Lemma p12_X q : 0 < q -> p12 (N := XN) (Fin q) = Fin (sqrt q).
Proof. intros H. unfold p12. xn. rewrite xpow_fin by auto. rewrite Rpw_half by lra. reflexivity. Qed.
Lemma p32_X q : 0 < q -> p32 (N := XN) (Fin q) = Fin (q * sqrt q).
Proof. intros H. unfold p32. xn. rewrite xpow_fin by auto. rewrite Rpw_3half by lra. reflexivity. Qed.
Lemma finite_antideriv (f F : R -> R) L : 0 <= L ->
  (forall x, 0 <= x <= L -> is_derive F x (f x)) -> (forall x, 0 <= x <= L -> continuous f x) -> is_RInt f 0 L (F L - F 0).
Proof.
  intros HL HD HC. apply (is_RInt_derive F f); intros x Hx; rewrite Rmin_left, Rmax_right in Hx by lra; auto.
Qed.
Definition quad_pos a b c L := forall x, 0 <= x <= L -> 0 < a^2 - 2*b*x + c^2*x^2.
Lemma norm_X a b c x : b * b - a * a * (c * c) <> 0 -> 0 < qq a b c x ->
  i30indef_norm (N := XN) (Fin a) (Fin b) (Fin c) (Fin x) = Fin (N30 a b c x) /\
  i50indef_norm (N := XN) (Fin a) (Fin b) (Fin c) (Fin x) = Fin (N5 a b c (P50 a b c) x - c * c * (b * b + a * a * (c * c)) * x / ((b * b - a * a * (c * c)) * (b * b - a * a * (c * c)) * (qq a b c x * sqrt (qq a b c x)))) /\
  i51indef_norm (N := XN) (Fin a) (Fin b) (Fin c) (Fin x) = Fin (N5 a b c (P51 a b c) x) /\
  i52indef_norm (N := XN) (Fin a) (Fin b) (Fin c) (Fin x) = Fin (N5 a b c (P52 a b c) x).
Proof.
  intros HD Q. assert (S : 0 < sqrt (qq a b c x)) by (apply sqrt_lt_R0; auto).
  assert (EQ : a * a - 2 * b * x + c * c * (x * x) = qq a b c x) by (unfold qq; ring).
  assert (D1 : (b * b - a * a * (c * c)) * sqrt (qq a b c x) <> 0) by (apply Rmult_integral_contrapositive_currified; auto; lra).
  assert (D2 : (b * b - a * a * (c * c)) * (b * b - a * a * (c * c)) * (qq a b c x * sqrt (qq a b c x)) <> 0).
  { apply Rmult_integral_contrapositive_currified; [apply Rmult_integral_contrapositive_currified; auto|]. apply Rgt_not_eq, Rmult_lt_0_compat; auto. }
  unfold i30indef_norm, i50indef_norm, i51indef_norm, i52indef_norm. xn. rewrite EQ, p12_X, p32_X by auto. xn.
  rewrite !xdiv_fin by auto. repeat split; f_equal; unfold N30, N5, P50, P51, P52; field; repeat split; auto; lra.
Qed.
Lemma sing_X a c s x : 0 < a -> 0 < c -> (s = 1 \/ s = -1) -> 0 < a - s * c * x ->
  i30indef_sing (N := XN) (Fin a) (Fin (s * a * c)) (Fin c) (Fin x) = Fin (S30 a c s x) /\
  i50indef_sing (N := XN) (Fin a) (Fin (s * a * c)) (Fin c) (Fin x) = Fin (S50 a c s x) /\
  i51indef_sing (N := XN) (Fin a) (Fin (s * a * c)) (Fin c) (Fin x) = Fin (S51 a c s x) /\
  i52indef_sing (N := XN) (Fin a) (Fin (s * a * c)) (Fin c) (Fin x) = Fin (S52 a c s x).
Proof.
  intros Ha Hc Hs W. pose proof (Rmult_lt_0_compat a c Ha Hc) as Hac.
  assert (SG : Rsgn (s * a * c) = s).
  { unfold Rsgn. destruct Hs as [-> | ->].
    - destruct (Rlt_dec 0 (1 * a * c)); lra.
    - destruct (Rlt_dec 0 (-1 * a * c)); [lra|]. destruct (Rlt_dec (-1 * a * c) 0); lra. }
  assert (WW : 0 < (a - s * c * x) * (a - s * c * x)) by (apply Rmult_lt_0_compat; auto).
  unfold i30indef_sing, i50indef_sing, i51indef_sing, i52indef_sing. xn. rewrite SG.
  assert (D2 : 2 * c * ((a - s * c * x) * (a - s * c * x)) <> 0) by (apply Rgt_not_eq; repeat apply Rmult_lt_0_compat; lra).
  rewrite !xdiv_fin by (try (apply Rgt_not_eq; repeat apply Rmult_lt_0_compat; lra); auto).
  repeat split; f_equal; unfold S30, S50, S51, S52; field; split; lra.
Qed.
Lemma sing_pos a b c L : 0 < a -> 0 < c -> 0 <= L -> quad_pos a b c L -> b * b - a * a * (c * c) = 0 ->
  exists s, (s = 1 \/ s = -1) /\ b = s * a * c /\ forall x, 0 <= x <= L -> 0 < a - s * c * x.
Proof.
  intros Ha Hc HL Q HD. assert (F : (b - a * c) * (b + a * c) = 0) by (rewrite <- HD; ring).
  destruct (Rmult_integral _ _ F) as [E|E].
  - exists 1. split; auto. split; [lra|]. intros x Hx. destruct (Rlt_dec 0 (a - 1 * c * x)); auto. exfalso.
    assert (H : 0 <= a / c <= L).
    { split; [apply Rlt_le, Rdiv_lt_0_compat; lra|]. apply Rle_trans with x; [|lra].
      apply Rmult_le_reg_l with c; auto. replace (c * (a / c)) with a by (field; lra). lra. }
    specialize (Q _ H). replace (a ^ 2 - 2 * b * (a / c) + c ^ 2 * (a / c) ^ 2) with ((b - a * c) * (- 2 * a / c)) in Q by (field; lra).
    rewrite E, Rmult_0_l in Q. lra.
  - exists (-1). split; auto. split; [lra|]. intros x [Hx _]. pose proof (Rmult_le_pos c x ltac:(lra) Hx). lra.
Qed.
(** the I50 antiderivative of the code misses this *)
Definition i50_error a b c L := c^2 * (b^2 + a^2 * c^2) * L / ((b^2 - a^2 * c^2)^2 * sqrt (a^2 - 2*b*L + c^2*L^2) ^ 3).
Lemma finite_all a b c L : 0 < a -> 0 < c -> 0 <= L -> quad_pos a b c L ->
  (b^2 = a^2 * c^2 \/ 1/100000000 <= Rabs (b^2 - a^2 * c^2)) ->
  exists v30 v50 v51 v52,
    integrals_DL_finite (N := XN) (Fin a) (Fin b) (Fin c) (Fin L) = (Fin v30, Fin v50, Fin v51, Fin v52) /\
    is_RInt (int30 a b c) 0 L v30 /\
    is_RInt (int50 a b c) 0 L (if Req_EM_T (b^2) (a^2 * c^2) then v50 else v50 + i50_error a b c L) /\
    is_RInt (int51 a b c) 0 L v51 /\ is_RInt (int52 a b c) 0 L v52.
Proof.
  intros Ha Hc HL Q HD. unfold integrals_DL_finite. pose proof (Q L ltac:(lra)) as QL. pose proof (Q 0 ltac:(lra)) as Q0.
  assert (EC : nlt XN (nabs XN (nsub XN (sq (Fin b : XN)) (nmul XN (sq (Fin a : XN)) (sq (Fin c : XN))))) (nQ XN 1 100000000) = Rltb (Rabs (b * b - a * a * (c * c))) (1/100000000)) by (xn; reflexivity).
  rewrite EC. clear EC. destruct (Req_EM_T (b^2) (a^2 * c^2)) as [E|E].
  - rewrite (proj2 (Rltb_true _ _)) by (replace (b * b - a * a * (c * c)) with 0 by lra; rewrite Rabs_R0; lra).
    destruct (sing_pos a b c L Ha Hc HL Q ltac:(lra)) as (s & Hs & -> & W).
    assert (Hs2 : s * s = 1) by (destruct Hs as [-> | ->]; ring).
    destruct (sing_X a c s L Ha Hc Hs (W L ltac:(lra))) as (A1 & A2 & A3 & A4).
    destruct (sing_X a c s 0 Ha Hc Hs (W 0 ltac:(lra))) as (B1 & B2 & B3 & B4).
    rewrite A1, A2, A3, A4. change (nZ XN 0) with (Fin 0 : XN). rewrite B1, B2, B3, B4. xn.
    eexists _, _, _, _. split; [reflexivity|].
    pose proof (fun x Hx => dS a c s Hc Hs2 x (W x Hx)) as D.
    split; [|split; [|split]]; (apply finite_antideriv; auto; [intros x Hx; apply (D x Hx)|intros x Hx]); [apply c30|apply c50|apply c51|apply c52]; apply (Q x Hx).
  - destruct HD as [HD|HD]; [contradiction|].
    rewrite (proj2 (Rltb_false _ _)) by (replace (b * b - a * a * (c * c)) with (b^2 - a^2*c^2) by ring; lra).
    assert (HN : b * b - a * a * (c * c) <> 0) by lra.
    destruct (norm_X a b c L HN QL) as (A1 & A2 & A3 & A4).
    destruct (norm_X a b c 0 HN Q0) as (B1 & B2 & B3 & B4).
    rewrite A1, A2, A3, A4. change (nZ XN 0) with (Fin 0 : XN). rewrite B1, B2, B3, B4. xn.
    eexists _, _, _, _. split; [reflexivity|].
    split; [|split; [|split]].
    + apply finite_antideriv; auto; intros x Hx; [apply d30; auto; apply (Q x Hx)|apply c30, (Q x Hx)].
    + assert (I : is_RInt (int50 a b c) 0 L (N5 a b c (P50 a b c) L - N5 a b c (P50 a b c) 0)).
      { apply finite_antideriv; auto; intros x Hx; [apply d50; auto; apply (Q x Hx)|apply c50, (Q x Hx)]. }
      match goal with |- is_RInt _ _ _ ?v => replace v with (N5 a b c (P50 a b c) L - N5 a b c (P50 a b c) 0); auto end.
      unfold i50_error. fold (qq a b c L).
      assert (S : 0 < sqrt (qq a b c L)) by (apply sqrt_lt_R0; auto).
      assert (SS : sqrt (qq a b c L) * sqrt (qq a b c L) = qq a b c L) by (apply sqrt_sqrt; unfold quad_pos in Q; fold (qq a b c L) in QL; lra).
      assert (Z : c * c * (b * b + a * a * (c * c)) * 0 = 0) by ring.
      rewrite Z. replace (0 / ((b * b - a * a * (c * c)) * (b * b - a * a * (c * c)) * (qq a b c 0 * sqrt (qq a b c 0)))) with 0 by (unfold Rdiv; ring).
      replace (c ^ 2 * (b ^ 2 + a ^ 2 * c ^ 2) * L / ((b ^ 2 - a ^ 2 * c ^ 2) ^ 2 * sqrt (qq a b c L) ^ 3)) with
        (c * c * (b * b + a * a * (c * c)) * L / ((b * b - a * a * (c * c)) * (b * b - a * a * (c * c)) * (qq a b c L * sqrt (qq a b c L)))); [ring|].
      rewrite <- SS at 1. field. split; lra.
    + apply finite_antideriv; auto; intros x Hx; [apply d51; auto; apply (Q x Hx)|apply c51, (Q x Hx)].
    + apply finite_antideriv; auto; intros x Hx; [apply d52; auto; apply (Q x Hx)|apply c52, (Q x Hx)].
Qed.
Theorem C90_finite_integrals_partial :
  (* everything except 3*I50 in the generic (b^2 <> a^2 c^2) case *)
  forall a b c L, 0 < a -> 0 < c -> 0 <= L -> (forall x, 0 <= x <= L -> 0 < a^2 - 2*b*x + c^2*x^2) ->
  (b^2 = a^2 * c^2 \/ 1/100000000 <= Rabs (b^2 - a^2 * c^2)) ->
  exists v30 v50 v51 v52,
    integrals_DL_finite (N := XN) (Fin a) (Fin b) (Fin c) (Fin L) = (Fin v30, Fin v50, Fin v51, Fin v52) /\
    is_RInt (fun x => 1 / sqrt (a^2 - 2*b*x + c^2*x^2) ^ 3) 0 L v30 /\
    (b^2 = a^2 * c^2 -> is_RInt (fun x => 3 * (1 / sqrt (a^2 - 2*b*x + c^2*x^2) ^ 5)) 0 L v50) /\
    is_RInt (fun x => 3 * (x / sqrt (a^2 - 2*b*x + c^2*x^2) ^ 5)) 0 L v51 /\
    is_RInt (fun x => 3 * (x^2 / sqrt (a^2 - 2*b*x + c^2*x^2) ^ 5)) 0 L v52.
Proof.
  intros a b c L Ha Hc HL Q HD. destruct (finite_all a b c L Ha Hc HL Q HD) as (v0 & v1 & v2 & v3 & E & A & B & C & D).
  exists v0, v1, v2, v3. repeat split; auto. intros HE. destruct (Req_EM_T (b^2) (a^2 * c^2)); [exact B|contradiction].
Qed.
Lemma error_pos a b c L : 0 < a -> 0 < c -> 0 < L -> 0 < a^2 - 2*b*L + c^2*L^2 -> b^2 <> a^2 * c^2 -> 0 < i50_error a b c L.
Proof.
  intros Ha Hc HL Q HD. unfold i50_error. pose proof (Rsq_lt c ltac:(lra)). pose proof (Rsq_lt a ltac:(lra)). pose proof (Rsq_pos b).
  assert (0 < a * a * (c * c)) by (apply Rmult_lt_0_compat; auto).
  pose proof (Rsq_lt (b^2 - a^2*c^2) ltac:(lra)). assert (0 < sqrt (a^2 - 2*b*L + c^2*L^2)) by (apply sqrt_lt_R0; auto).
  apply Rdiv_lt_0_compat.
  - replace (c^2 * (b^2 + a^2*c^2) * L) with (c * c * (b * b + a * a * (c * c)) * L) by ring. repeat apply Rmult_lt_0_compat; lra.
  - replace ((b ^ 2 - a ^ 2 * c ^ 2) ^ 2) with ((b^2 - a^2*c^2) * (b^2 - a^2*c^2)) by ring. apply Rmult_lt_0_compat; auto. apply pow_lt; auto.
Qed.
Theorem C90_finite_I50_refuted :
  (* the code's 3*I50 over a finite length is NEVER the documented integral in the generic case:
     the antiderivative at VortexDoublet.py:345 has 2 c^2(b^2+a^2c^2) x instead of 3 c^2(b^2+a^2c^2) x *)
  forall a b c L, 0 < a -> 0 < c -> 0 < L -> (forall x, 0 <= x <= L -> 0 < a^2 - 2*b*x + c^2*x^2) ->
  1/100000000 <= Rabs (b^2 - a^2 * c^2) ->
  exists v30 v50 v51 v52,
    integrals_DL_finite (N := XN) (Fin a) (Fin b) (Fin c) (Fin L) = (Fin v30, Fin v50, Fin v51, Fin v52) /\
    ~ is_RInt (fun x => 3 * (1 / sqrt (a^2 - 2*b*x + c^2*x^2) ^ 5)) 0 L v50.
Proof.
  intros a b c L Ha Hc HL Q HD. destruct (finite_all a b c L Ha Hc ltac:(lra) Q (or_intror HD)) as (v0 & v1 & v2 & v3 & E & A & B & C & D).
  exists v0, v1, v2, v3. split; auto. intros I.
  destruct (Req_EM_T (b^2) (a^2 * c^2)) as [HE|HE].
  - rewrite HE, Rminus_eq_0, Rabs_R0 in HD. lra.
  - pose proof (error_pos a b c L Ha Hc HL (Q L ltac:(lra)) HE).
    pose proof (is_RInt_unique _ _ _ _ I). pose proof (is_RInt_unique _ _ _ _ B). unfold int50, qq in *. lra.
Qed.
Example C90_nonvacuous : (forall x, 0 <= x <= 3 -> 0 < 1^2 - 2*0*x + 1^2*x^2) /\ 1/100000000 <= Rabs (0^2 - 1^2 * 1^2).
Proof. split; [intros; nra|]. rewrite Rabs_left by lra. lra. Qed.

(** ** C64 *)
Section Line.
  Variables D m x y z : R.
  Let a := length3 (x, y, z).
  Let b := m * x + z.
  Let c := sqrt (m * m + 1).
  Lemma c_pos : 0 < c /\ c * c = m * m + 1.
  Proof. pose proof (Rsq_pos m). split; [apply sqrt_lt_R0; lra|apply sqrt_sqrt; lra]. Qed.
  Lemma a_sq : 0 <= a /\ a * a = x * x + y * y + z * z.
  Proof. split; [apply length3_pos|]. unfold a. rewrite length3_sq. unfold inner, px, py, pz. cbn. ring. Qed.
  Lemma disc : a * a * (c * c) - b * b = (x - m * z) * (x - m * z) + y * y * (m * m + 1).
  Proof. destruct a_sq as [_ ->]. destruct c_pos as [_ ->]. unfold b. ring. Qed.
  Lemma q_line s : qq a b c s = inner (sub3 (x, y, z) (m * s, 0, s)) (sub3 (x, y, z) (m * s, 0, s)).
  Proof.
    unfold qq. replace (a ^ 2) with (a * a) by ring. replace (c ^ 2) with (c * c) by ring.
    destruct a_sq as [_ ->]. destruct c_pos as [_ ->]. unfold b, inner, sub3, px, py, pz. cbn. ring.
  Qed.
  Lemma pd_comp s : 0 < qq a b c s ->
    point_doublet (0, 0, D) (m * s, 0, s) (x, y, z) =
      (D / (4 * PI) * (x * z * int50 a b c s + m * int52 a b c s - (m * z + x) * int51 a b c s),
       D / (4 * PI) * (y * z * int50 a b c s - y * int51 a b c s),
       D / (4 * PI) * (z * z * int50 a b c s + int52 a b c s - 2 * z * int51 a b c s - int30 a b c s)).
  Proof.
    intros Q. unfold point_doublet. pose proof PI_RGT_0.
    assert (EL : length3 (sub3 (x, y, z) (m * s, 0, s)) = sqrt (qq a b c s)) by (unfold length3; rewrite q_line; reflexivity).
    rewrite EL. unfold int30, int50, int51, int52. assert (S : 0 < sqrt (qq a b c s)) by (apply sqrt_lt_R0; auto).
    unfold scal3, sub3, inner, px, py, pz. cbn [fst snd]. f_equal; [f_equal|]; field; split; lra.
  Qed.
  (** off the half line the closed forms are admissible *)
  Lemma off_line : ~ (x = m * z /\ y = 0 /\ 0 <= z) -> 0 < a /\ b < a * c.
  Proof.
    intros H. destruct a_sq as [A0 A2]. destruct c_pos as [C0 C2]. pose proof disc as DI.
    pose proof (Rsq_pos (x - m * z)). pose proof (Rsq_pos y). pose proof (Rsq_pos m).
    assert (Y : 0 <= y * y * (m * m + 1)) by (apply Rmult_le_pos; lra).
    assert (Ha : 0 < a).
    { destruct A0 as [A0|A0]; auto. exfalso. apply H. rewrite <- A0 in A2.
      pose proof (Rsq_pos x). pose proof (Rsq_pos z).
      assert (Ex : x * x = 0) by lra. assert (Ey : y * y = 0) by lra. assert (Ez : z * z = 0) by lra.
      destruct (Rmult_integral _ _ Ex), (Rmult_integral _ _ Ey), (Rmult_integral _ _ Ez); subst; repeat split; lra. }
    split; auto. destruct (Rlt_dec b (a * c)); auto. exfalso. apply H.
    assert (P : 0 < a * c) by (apply Rmult_lt_0_compat; auto).
    assert (a * c * (a * c) <= b * b) by (apply Rmult_le_compat; lra).
    assert (E1 : (x - m * z) * (x - m * z) = 0) by lra. assert (E2 : y * y * (m * m + 1) = 0) by lra.
    assert (Ex : x = m * z) by (destruct (Rmult_integral _ _ E1); lra).
    split; auto. destruct (Rmult_integral _ _ E2) as [E3|E3]; [|lra].
    split; [destruct (Rmult_integral _ _ E3); auto|].
    assert (0 < b) by lra. unfold b in H4. rewrite Ex in H4. replace (m * (m * z) + z) with ((m * m + 1) * z) in H4 by ring.
    apply Rmult_le_reg_l with (m * m + 1); lra.
  Qed.
  Definition line_val (i30 i50 i51 i52 : R) : R3 :=
    (D / (4 * PI) * (x * z * i50 + m * i52 - (m * z + x) * i51),
     D / (4 * PI) * (y * z * i50 - y * i51),
     D / (4 * PI) * (z * z * i50 + i52 - 2 * z * i51 - i30)).
End Line.
Lemma comb_gen f0 f1 f2 f3 v0 v1 v2 v3 d k0 k1 k2 k3 (F : R -> R) :
  over_half_line f0 v0 -> over_half_line f1 v1 -> over_half_line f2 v2 -> over_half_line f3 v3 ->
  (forall s, 0 <= s -> F s = d * (k1 * f1 s + k3 * f3 s - k2 * f2 s - k0 * f0 s)) ->
  over_half_line F (d * (k1 * v1 + k3 * v3 - k2 * v2 - k0 * v0)).
Proof.
  unfold over_half_line. intros H0 H1 H2 H3 E.
  apply is_RInt_gen_ext with (fun s => d * (k1 * f1 s + k3 * f3 s - k2 * f2 s - k0 * f0 s)).
  - apply Filter_prod with (Q := fun x => x = 0) (R := fun b => 0 < b); [reflexivity|exists 0; auto|].
    intros x b -> Hb s Hs. cbn [fst snd] in Hs. rewrite Rmin_left in Hs by lra. symmetry. apply E. lra.
  - apply (is_RInt_gen_scal (V := R_NormedModule)).
    apply (is_RInt_gen_minus (V := R_NormedModule) (fun s => k1 * f1 s + k3 * f3 s - k2 * f2 s) (fun s => k0 * f0 s)); [|apply (is_RInt_gen_scal (V := R_NormedModule)); auto].
    apply (is_RInt_gen_minus (V := R_NormedModule) (fun s => k1 * f1 s + k3 * f3 s) (fun s => k2 * f2 s)); [|apply (is_RInt_gen_scal (V := R_NormedModule)); auto].
    apply (is_RInt_gen_plus (V := R_NormedModule) (fun s => k1 * f1 s) (fun s => k3 * f3 s)); apply (is_RInt_gen_scal (V := R_NormedModule)); auto.
Qed.
Lemma comb_fin L f0 f1 f2 f3 v0 v1 v2 v3 d k0 k1 k2 k3 (F : R -> R) : 0 <= L ->
  is_RInt f0 0 L v0 -> is_RInt f1 0 L v1 -> is_RInt f2 0 L v2 -> is_RInt f3 0 L v3 ->
  (forall s, 0 <= s <= L -> F s = d * (k1 * f1 s + k3 * f3 s - k2 * f2 s - k0 * f0 s)) ->
  is_RInt F 0 L (d * (k1 * v1 + k3 * v3 - k2 * v2 - k0 * v0)).
Proof.
  intros HL H0 H1 H2 H3 E.
  apply is_RInt_ext with (fun s => d * (k1 * f1 s + k3 * f3 s - k2 * f2 s - k0 * f0 s)).
  - intros s Hs. rewrite Rmin_left, Rmax_right in Hs by lra. symmetry. apply E. lra.
  - apply (is_RInt_scal (V := R_NormedModule)).
    apply (is_RInt_minus (V := R_NormedModule) (fun s => k1 * f1 s + k3 * f3 s - k2 * f2 s) (fun s => k0 * f0 s)); [|apply (is_RInt_scal (V := R_NormedModule)); auto].
    apply (is_RInt_minus (V := R_NormedModule) (fun s => k1 * f1 s + k3 * f3 s) (fun s => k2 * f2 s)); [|apply (is_RInt_scal (V := R_NormedModule)); auto].
    apply (is_RInt_plus (V := R_NormedModule) (fun s => k1 * f1 s) (fun s => k3 * f3 s)); apply (is_RInt_scal (V := R_NormedModule)); auto.
Qed.
Lemma line_comb (P : (R -> R) -> R -> Prop) (dom : R -> Prop) D m x y z v0 v1 v2 v3 :
  let a := length3 (x, y, z) in let b := m * x + z in let c := sqrt (m * m + 1) in
  (forall d k0 k1 k2 k3 F, (forall s, dom s -> F s = d * (k1 * int50 a b c s + k3 * int52 a b c s - k2 * int51 a b c s - k0 * int30 a b c s)) ->
     P F (d * (k1 * v1 + k3 * v3 - k2 * v2 - k0 * v0))) ->
  (forall s, dom s -> 0 < qq a b c s) ->
  each3 (fun c => P (fun s => c (point_doublet (0, 0, D) (m * s, 0, s) (x, y, z))) (c (line_val D m x y z v0 v1 v2 v3))).
Proof.
  intros a b c H Q. unfold line_val. split; [|split]; cbn [px py pz fst snd].
  - replace (x * z * v1 + m * v3 - (m * z + x) * v2) with (x * z * v1 + m * v3 - (m * z + x) * v2 - 0 * v0) by ring.
    apply H. intros s Hs. rewrite pd_comp by (apply Q; auto). fold a b c. unfold px. cbn [fst snd]. ring.
  - replace (y * z * v1 - y * v2) with (y * z * v1 + 0 * v3 - y * v2 - 0 * v0) by ring.
    apply H. intros s Hs. rewrite pd_comp by (apply Q; auto). fold a b c. unfold py. cbn [fst snd]. ring.
  - replace (z * z * v1 + v3 - 2 * z * v2 - v0) with (z * z * v1 + 1 * v3 - 2 * z * v2 - 1 * v0) by ring.
    apply H. intros s Hs. rewrite pd_comp by (apply Q; auto). fold a b c. unfold pz. cbn [fst snd]. ring.
Qed.
(** the code's on-line zone (tolerance 1e-8) *)
Definition near_line (m : R) (L : option R) (x : R3) : Prop :=
  Rabs (py x) < 1/100000000 /\ Rabs (px x - m * pz x) < 1/100000000 /\ 0 <= pz x /\ match L with Some l => pz x <= l | None => True end.
Definition lenX (L : option R) : XN := match L with Some l => Fin l | None => PInf end.
Lemma on_line_b m L p : 
  ((nlt XN (nabs XN (Fin (py p))) (nQ XN 1 100000000) && nlt XN (nabs XN (nsub XN (Fin (px p)) (nmul XN (Fin m) (Fin (pz p))))) (nQ XN 1 100000000) && nle XN (nZ XN 0) (Fin (pz p)) && nle XN (Fin (pz p)) (lenX L))%bool = true)
  <-> near_line m L p.
Proof.
  unfold near_line. rewrite !andb_true_iff. xn. rewrite !Rltb_true, Rleb_true.
  destruct L as [l|]; cbn [lenX]; xn; [rewrite Rleb_true|]; tauto.
Qed.
Lemma dl_X D m L p i30 i50 i51 i52 : ~ near_line m L p ->
  (if neqb XN (lenX L) (ninf XN) then (I30 (N := XN) (Fin (length3 p)) (Fin (m * px p + pz p)) (Fin (sqrt (m * m + 1))), tI50 (N := XN) (Fin (length3 p)) (Fin (m * px p + pz p)) (Fin (sqrt (m * m + 1))), tI51 (N := XN) (Fin (length3 p)) (Fin (m * px p + pz p)) (Fin (sqrt (m * m + 1))), tI52 (N := XN) (Fin (length3 p)) (Fin (m * px p + pz p)) (Fin (sqrt (m * m + 1))))
   else integrals_DL_finite (N := XN) (Fin (length3 p)) (Fin (m * px p + pz p)) (Fin (sqrt (m * m + 1))) (lenX L)) = (Fin i30, Fin i50, Fin i51, Fin i52) ->
  doublet_line_u (N := XN) (Fin D) (Fin m) (lenX L) (xv p) = xv (line_val D m (px p) (py p) (pz p) i30 i50 i51 i52).
Proof.
  intros NL HI. pose proof PI_RGT_0. destruct p as [[x y] z]. unfold doublet_line_u, xv.
  pose proof (Rsq_pos x). pose proof (Rsq_pos y). pose proof (Rsq_pos z). pose proof (Rsq_pos m).
  assert (Ea : nsqrt XN (nadd XN (nadd XN (sq (Fin x : XN)) (sq (Fin y : XN))) (sq (Fin z : XN))) = Fin (length3 (x, y, z))).
  { xn. rewrite xsqrt_fin by lra. reflexivity. }
  assert (Ec : nsqrt XN (nadd XN (sq (Fin m : XN)) (nZ XN 1)) = Fin (sqrt (m * m + 1))).
  { xn. rewrite xsqrt_fin by lra. reflexivity. }
  assert (Eb : nadd XN (nmul XN (Fin m) (Fin x)) (Fin z) = Fin (m * x + z)) by reflexivity.
  cbn [px py pz fst snd] in *. rewrite Ea, Ec, Eb. rewrite HI.
  assert (NB := proj2 (not_iff_compat (on_line_b m L (x, y, z))) NL). cbn [px py pz fst snd] in NB. apply not_true_is_false in NB.
  cbv zeta. rewrite NB. xn. rewrite xdiv_fin by lra. unfold line_val, px, py, pz. cbn [fst snd]. xn. reflexivity.
Qed.
Lemma not_near_off m x y z : ~ near_line m None (x, y, z) -> ~ (x = m * z /\ y = 0 /\ 0 <= z).
Proof.
  intros N (E1 & E2 & E3). apply N. unfold near_line, px, py, pz. cbn. subst x y. rewrite Rminus_eq_0, Rabs_R0. repeat split; lra.
Qed.
Theorem C64_line_is_integral_of_doublets :
  forall D m p, ~ near_line m None p ->
  exists u, doublet_line_u (N := XN) (Fin D) (Fin m) PInf (xv p) = xv u /\ doublet_half_line D m p u.
Proof.
  intros D m [[x y] z] NL. pose proof (off_line m x y z (not_near_off _ _ _ _ NL)) as [Ha Hb].
  destruct (c_pos m) as [Hc _].
  destruct (C63_semi_infinite_integrals _ _ _ Ha Hc Hb) as (v0 & v1 & v2 & v3 & E0 & I0 & E1 & I1 & E2 & I2 & E3 & I3).
  exists (line_val D m x y z v0 v1 v2 v3). split.
  - apply (dl_X D m None (x, y, z) v0 v1 v2 v3 NL). cbn [lenX neqb XN xeqb ninf]. cbn [px py pz fst snd]. rewrite E0, E1, E2, E3. reflexivity.
  - unfold doublet_half_line. apply (line_comb over_half_line (fun s => 0 <= s)).
    + intros d k0 k1 k2 k3 F HF. apply (comb_gen _ _ _ _ v0 v1 v2 v3 d k0 k1 k2 k3 F I0 I1 I2 I3). exact HF.
    + intros s Hs. apply qpos; auto.
Qed.
Theorem C64_zero_on_the_line : forall D m L p, near_line m L p -> doublet_line_u (N := XN) (Fin D) (Fin m) (lenX L) (xv p) = xv zero.
Proof.
  intros D m L p NL. pose proof (proj2 (on_line_b m L p) NL) as B. destruct p as [[x y] z]. unfold doublet_line_u, xv. cbv zeta.
  cbn [px py pz fst snd] in B. cbn [px py pz fst snd]. rewrite B. reflexivity.
Qed.
(** a straight line of doublets is a point sink *)
Theorem C64_straight_is_point_sink :
  forall D p, ~ near_line 0 None p ->
  doublet_line_u (N := XN) (Fin D) (Fin 0) PInf (xv p) = xv (scal3 (- D / (4 * PI) / length3 p ^ 3) p).
Proof.
  intros D [[x y] z] NL. pose proof (off_line 0 x y z (not_near_off _ _ _ _ NL)) as [Ha Hb]. pose proof PI_RGT_0.
  replace (0 * 0 + 1) with 1 in * by ring. rewrite sqrt_1 in Hb.
  set (a := length3 (x, y, z)) in *.
  assert (D1 : a - z <> 0) by lra.
  assert (P2 : 0 < (a - z) * (a - z)) by (apply Rmult_lt_0_compat; lra).
  pose proof (dl_X D 0 None (x, y, z) (1 / (a * (a * 1 - (0 * x + z)))) ((2 * a * 1 - (0 * x + z)) / (a * a * a * ((a * 1 - (0 * x + z)) * (a * 1 - (0 * x + z)))))
     (1 / (a * ((a * 1 - (0 * x + z)) * (a * 1 - (0 * x + z))))) (1 / (1 * ((a * 1 - (0 * x + z)) * (a * 1 - (0 * x + z))))) NL) as E.
  cbn [lenX] in E. rewrite E; clear E.
  - unfold line_val, xv, scal3, px, py, pz. cbn [fst snd]. f_equal; [f_equal|]; f_equal; field; repeat split; lra.
  - cbn [lenX neqb XN xeqb ninf]. cbn [px py pz fst snd]. fold a. replace (0 * 0 + 1) with 1 by ring. rewrite sqrt_1.
    unfold I30, tI50, tI51, tI52. xn. replace (a * 1 - (0 * x + z)) with (a - z) by ring. 
    rewrite !xdiv_fin by (apply Rgt_not_eq; repeat apply Rmult_lt_0_compat; lra). reflexivity.
Qed.
Example C64_nonvacuous : ~ near_line 2 None (1, 1, 1).
Proof. unfold near_line, px, py, pz. cbn. rewrite Rabs_right by lra. intros (H & _). lra. Qed.

(** the polar version of the straight line *)
Lemma polar_line_val D r z : 0 <= r ->
  (1/100000000 <= r /\ 1/100000000 <= Rabs z) \/ (1/100000000 < r /\ z = 0) \/ (r = 0 /\ z < - (1/100000000)) ->
  doublet_line_polar_pt (N := XN) (Fin D) (Fin r, Fin z) =
    (Fin (- D / (4 * PI) * r / sqrt (r * r + z * z) ^ 3), Fin (- D / (4 * PI) * z / sqrt (r * r + z * z) ^ 3)).
Proof.
  intros Hr H. pose proof PI_RGT_0. unfold doublet_line_polar_pt. cbv zeta.
  assert (Q : 0 < r * r + z * z).
  { destruct H as [[H1 H2]|[[H1 H2]|[H1 H2]]].
    - pose proof (Rsq_lt r ltac:(lra)). pose proof (Rsq_pos z). lra.
    - pose proof (Rsq_lt r ltac:(lra)). pose proof (Rsq_pos z). lra.
    - pose proof (Rsq_lt z ltac:(lra)). pose proof (Rsq_pos r). lra. }
  set (w := sqrt (r * r + z * z)). assert (W : 0 < w) by (apply sqrt_lt_R0; auto).
  assert (WW : w * w = r * r + z * z) by (apply sqrt_sqrt; lra).
  assert (W3 : 0 < w * w * w) by (repeat apply Rmult_lt_0_compat; auto).
  assert (EQ : nadd XN (sq (Fin r : XN)) (sq (Fin z : XN)) = Fin (r * r + z * z)) by (xn; reflexivity).
  rewrite EQ. rewrite p32_X, p12_X by auto. fold w.
  xn. rewrite (xdiv_fin D) by lra. rewrite (xdiv_fin (- D)) by lra. xn.
  rewrite (Rabs_right r) by lra.
  destruct H as [[H1 H2]|[[H1 ->]|[-> H2]]].
  - assert (R2 : 0 < r * r) by (apply Rmult_lt_0_compat; lra).
    rewrite (proj2 (Rltb_false (Rabs z) _)), (proj2 (Rltb_false r _)) by lra. cbn [andb negb].
    rewrite !xdiv_fin by (try lra; rewrite <- WW; lra). xn. f_equal; f_equal.
    + rewrite <- WW. field. lra.
    + apply Rmult_eq_reg_l with (w * w * w * (r * r)); [|apply Rgt_not_eq, Rmult_lt_0_compat; auto].
      transitivity (D / (4 * PI) * (z * (z * z - w * w))); [rewrite <- WW; field; lra|].
      replace (z * (z * z - w * w)) with (- (z * (r * r))) by (rewrite WW; ring). field. split; lra.
  - rewrite Rabs_R0. rewrite (proj2 (Rltb_true 0 _)), (proj2 (Rltb_false r _)) by lra. cbn [andb negb].
    rewrite (proj2 (Rltb_true _ r)) by lra.
    rewrite !xdiv_fin by (rewrite <- WW; lra). f_equal; f_equal.
    + rewrite <- WW. field. lra.
    + field. split; lra.
  - rewrite Rabs_left by lra. rewrite (proj2 (Rltb_false (- z) _)), (proj2 (Rltb_true 0 _)) by lra. cbn [andb negb].
    rewrite (proj2 (Rltb_false _ z)) by lra. rewrite (proj2 (Rltb_true z _)) by lra.
    rewrite !xdiv_fin by lra. f_equal; f_equal.
    + field. split; lra.
    + assert (Ew : w = - z) by (unfold w; replace (0 * 0 + z * z) with (- z * - z) by ring; apply sqrt_square; lra).
      rewrite Ew. field. split; lra.
Qed.
Theorem C64_polar_agrees_with_cartesian :
  (* rotated into the meridian plane, the straight cartesian line gives the polar answer *)
  forall D r z psi bSelf, 
  (1/50000000 <= r /\ 1/100000000 <= Rabs z) \/ (1/50000000 <= r /\ z = 0) \/ (r = 0 /\ z < - (1/100000000)) ->
  exists ur uz,
    doublet_line_polar_u (N := XN) [(Fin r, Fin z)] (Fin D) bSelf = Ok [(Fin ur, Fin uz)] /\
    doublet_line_u (N := XN) (Fin D) (Fin 0) PInf (xv (r * cos psi, r * sin psi, z)) = xv (ur * cos psi, ur * sin psi, uz).
Proof.
  intros D r z psi bs H. pose proof PI_RGT_0.
  assert (Hr : 0 <= r) by (destruct H as [[H _]|[[H _]|[H _]]]; lra).
  exists (- D / (4 * PI) * r / sqrt (r * r + z * z) ^ 3), (- D / (4 * PI) * z / sqrt (r * r + z * z) ^ 3). split.
  - unfold doublet_line_polar_u, any_neg. cbn [existsb fst orb]. xn. rewrite (proj2 (Rltb_false r 0)) by lra. cbn [orb map].
    rewrite polar_line_val; auto. destruct H as [[H1 H2]|[[H1 H2]|H1]]; [left|right;left|right;right]; try split; lra.
  - pose proof (sin2_cos2 psi) as SC. unfold Rsqr in SC.
    assert (E2 : r * cos psi * (r * cos psi) + r * sin psi * (r * sin psi) = r * r).
    { transitivity (r * r * (sin psi * sin psi + cos psi * cos psi)); [ring|rewrite SC; ring]. }
    rewrite C64_straight_is_point_sink.
    + assert (EL : length3 (r * cos psi, r * sin psi, z) = sqrt (r * r + z * z)).
      { unfold length3, inner, px, py, pz. cbn [fst snd]. f_equal. lra. }
      rewrite EL. f_equal. unfold scal3, px, py, pz. cbn [fst snd]. f_equal; [f_equal|]; unfold Rdiv; ring.
    + unfold near_line, px, py, pz. cbn [fst snd]. intros (N1 & N2 & N3 & _).
      rewrite Rmult_0_l, Rminus_0_r in N2.
      assert (HR : 1/50000000 <= r) by (destruct H as [[H _]|[[H _]|[_ H]]]; lra).
      apply Rabs_def2 in N1. apply Rabs_def2 in N2. 
      assert (Q1 : r * cos psi * (r * cos psi) <= 1/100000000 * (1/100000000)) by nra.
      assert (Q2 : r * sin psi * (r * sin psi) <= 1/100000000 * (1/100000000)) by nra.
      assert (1/50000000 * (1/50000000) <= r * r) by (apply Rmult_le_compat; lra). lra.
Qed.
(** finite lengths: right when the I50 term does not matter, wrong otherwise *)
Lemma finite_line D m L x y z : 0 < L -> ~ near_line m (Some L) (x, y, z) ->
  let De := (x - m * z) ^ 2 + y ^ 2 * (m ^ 2 + 1) in
  1/100000000 <= De \/ (De = 0 /\ (z < 0 \/ L < z)) ->
  exists u e, doublet_line_u (N := XN) (Fin D) (Fin m) (Fin L) (xv (x, y, z)) = xv u /\
    doublet_segment D m L (x, y, z) (add3 u (scal3 (D / (4 * PI) * e * z) (x, y, z))) /\ (De = 0 -> e = 0) /\ (De <> 0 -> 0 < e).
Proof.
  intros HL NL De HD. pose proof (disc m x y z) as DI. destruct (c_pos m) as [Hc C2]. destruct (a_sq x y z) as [A0 A2].
  set (a := length3 (x, y, z)) in *. set (b := m * x + z) in *. set (c := sqrt (m * m + 1)) in *.
  assert (ED : a * a * (c * c) - b * b = De) by (rewrite DI; unfold De; ring).
  assert (Q : quad_pos a b c L).
  { intros s Hs. fold (qq a b c s). destruct HD as [HD|[HD Hz]].
    - apply Rmult_lt_reg_l with (c * c); [apply Rmult_lt_0_compat; auto|]. rewrite Rmult_0_r.
      replace (c * c * qq a b c s) with ((c * c * s - b) * (c * c * s - b) + De) by (rewrite <- ED; unfold qq; ring).
      pose proof (Rsq_pos (c * c * s - b)). lra.
    - rewrite (q_line m x y z s : qq a b c s = _). unfold inner, sub3, px, py, pz. cbn [fst snd].
      pose proof (Rsq_lt (z - s) ltac:(lra)). pose proof (Rsq_pos (x - m * s)). pose proof (Rsq_pos (y - 0)). lra. }
  assert (Ha : 0 < a).
  { pose proof (Q 0 ltac:(lra)) as Q0. destruct A0 as [A0|A0]; auto. rewrite <- A0 in Q0. replace (0 ^ 2 - 2 * b * 0 + c ^ 2 * 0 ^ 2) with 0 in Q0 by ring. lra. }
  assert (HT : b ^ 2 = a ^ 2 * c ^ 2 \/ 1 / 100000000 <= Rabs (b ^ 2 - a ^ 2 * c ^ 2)).
  { destruct HD as [HD|[HD _]]; [right|left; lra]. replace (b ^ 2 - a ^ 2 * c ^ 2) with (- De) by lra. rewrite Rabs_Ropp, Rabs_right; lra. }
  destruct (finite_all a b c L Ha Hc ltac:(lra) Q HT) as (v0 & v1 & v2 & v3 & E & I0 & I1 & I2 & I3).
  pose (e := if Req_EM_T (b ^ 2) (a ^ 2 * c ^ 2) then 0 else i50_error a b c L).
  exists (line_val D m x y z v0 v1 v2 v3), e. split; [|split; [|split]].
  - apply (dl_X D m (Some L) (x, y, z) v0 v1 v2 v3 NL). cbn [lenX neqb XN xeqb ninf]. exact E.
  - replace (add3 (line_val D m x y z v0 v1 v2 v3) (scal3 (D / (4 * PI) * e * z) (x, y, z))) with (line_val D m x y z v0 (v1 + e) v2 v3).
    + unfold doublet_segment. apply (line_comb (fun F v => is_RInt F 0 L v) (fun s => 0 <= s <= L)).
      * intros d k0 k1 k2 k3 F HF. apply (comb_fin L (int30 a b c) (int50 a b c) (int51 a b c) (int52 a b c)); auto; [lra|].
        unfold e. destruct (Req_EM_T _ _); [rewrite Rplus_0_r|]; exact I1.
      * exact Q.
    + unfold line_val, add3, scal3, px, py, pz. cbn [fst snd]. f_equal; [f_equal|]; unfold Rdiv; ring.
  - intros HE. unfold e. destruct (Req_EM_T _ _) as [_|NE]; auto. exfalso. apply NE. lra.
  - intros HE. unfold e. destruct (Req_EM_T _ _) as [E1|NE]; [exfalso; apply HE; lra|]. apply error_pos; auto. apply Q. lra.
Qed.
Theorem C91_finite_line_partial :
  (* a finite line is the integral of its doublets at points in its end plane z=0 or collinear with it *)
  forall D m L x y z, 0 < L -> ~ near_line m (Some L) (x, y, z) ->
  (z = 0 /\ 1/100000000 <= (x - m * z) ^ 2 + y ^ 2 * (m ^ 2 + 1)) \/ (x = m * z /\ y = 0 /\ (z < 0 \/ L < z)) ->
  exists u, doublet_line_u (N := XN) (Fin D) (Fin m) (Fin L) (xv (x, y, z)) = xv u /\ doublet_segment D m L (x, y, z) u.
Proof.
  intros D m L x y z HL NL H.
  destruct (finite_line D m L x y z HL NL) as (u & e & E & I & E0 & _).
  - destruct H as [[_ H]|(-> & -> & H)]; [left; auto|right; split; auto; ring].
  - exists u. split; auto. replace u with (add3 u (scal3 (D / (4 * PI) * e * z) (x, y, z))); auto.
    assert (Z : D / (4 * PI) * e * z = 0).
    { destruct H as [[-> _]|(-> & -> & _)]; [ring|]. rewrite E0 by ring. ring. }
    rewrite Z. destruct u as [[u1 u2] u3]. unfold add3, scal3, px, py, pz. cbn [fst snd]. f_equal; [f_equal|]; ring.
Qed.
Theorem C91_finite_line_refuted :
  (* everywhere else a finite line (D <> 0) is NOT the integral of its doublets *)
  forall D m L x y z, 0 < L -> D <> 0 -> z <> 0 -> ~ near_line m (Some L) (x, y, z) ->
  1/100000000 <= (x - m * z) ^ 2 + y ^ 2 * (m ^ 2 + 1) ->
  exists u, doublet_line_u (N := XN) (Fin D) (Fin m) (Fin L) (xv (x, y, z)) = xv u /\ ~ doublet_segment D m L (x, y, z) u.
Proof.
  intros D m L x y z HL HD0 Hz NL H. pose proof PI_RGT_0.
  destruct (finite_line D m L x y z HL NL (or_introl H)) as (u & e & E & I & _ & E0).
  exists u. split; auto. intros (_ & _ & J). destruct I as (_ & _ & I).
  pose proof (is_RInt_unique _ _ _ _ I) as I'. pose proof (is_RInt_unique _ _ _ _ J) as J'. rewrite J' in I'. clear I. rename I' into I.
  specialize (E0 ltac:(lra)). unfold add3, scal3, pz in I. cbn [fst snd] in I.
  assert (P : D / (4 * PI) * e * z * z = 0) by lra.
  assert (N : D / (4 * PI) * e * z * z <> 0).
  { repeat apply Rmult_integral_contrapositive_currified; auto; try lra. apply Rinv_neq_0_compat. lra. }
  contradiction.
Qed.
Example C91_nonvacuous : ~ near_line 0 (Some 5) (1, 0, 1) /\ 1/100000000 <= (1 - 0 * 1) ^ 2 + 0 ^ 2 * (0 ^ 2 + 1) /\
  ~ near_line 0 (Some 5) (1, 0, 0) /\ ~ near_line 0 (Some 5) (0, 0, -1).
Proof.
  unfold near_line, px, py, pz. cbn [fst snd]. repeat split; try lra; intros (A & B & C & _).
  - rewrite Rabs_right in B; lra.
  - rewrite Rabs_right in B; lra.
Qed.

(** ** C65 *)
(** (|r|^3)^(5/3) = |r|^5 *)
Lemma Rpw_5third w : 0 < w -> Rpw (w * w * w) (5/3) = w ^ 5.
Proof.
  intros W. assert (0 < w * w * w) by (repeat apply Rmult_lt_0_compat; auto).
  rewrite Rpw_pos by auto. replace (w * w * w) with (Rpower w 3).
  - rewrite Rpower_mult. replace (3 * (5 / 3)) with (INR 5) by (cbn; field). apply Rpower_pow; auto.
  - replace 3 with (INR 3) by (cbn; ring). rewrite Rpower_pow by auto. ring.
Qed.
Lemma pow32_X q : 0 <= q -> p32 (N := XN) (Fin q) = Fin (q * sqrt q).
Proof.
  intros H. unfold p32. xn. rewrite xpow_fin0 by lra. rewrite Rpw_3half by lra. reflexivity.
Qed.
Lemma doublet_X m x0 p : let r := sub3 p x0 in
  doublet_u (N := XN) (xv m) (xv x0) (xv p) =
  if Rltb (length3 r ^ 3) (1/100000000) then xv zero else xv (point_doublet m x0 p).
Proof.
  destruct m as [[m1 m2] m3], x0 as [[a1 a2] a3], p as [[x y] z]. cbv zeta. unfold doublet_u, xv. cbn [px py pz fst snd]. cbv zeta.
  pose proof PI_RGT_0. set (r := sub3 (x, y, z) (a1, a2, a3)).
  assert (Q : nadd XN (nadd XN (sq (nsub XN (Fin x) (Fin a1))) (sq (nsub XN (Fin y) (Fin a2)))) (sq (nsub XN (Fin z) (Fin a3))) = Fin (inner r r)) by (xn; reflexivity).
  rewrite Q. pose proof (length3_pos r) as L0. pose proof (length3_sq r) as L2. pose proof (inner_pos r) as IP.
  rewrite pow32_X by auto. fold (length3 r). rewrite <- L2.
  change (nlt XN (Fin (length3 r * length3 r * length3 r)) (nQ XN 1 100000000)) with (Rltb (length3 r * length3 r * length3 r) (1/100000000)).
  replace (length3 r ^ 3) with (length3 r * length3 r * length3 r) by ring.
  destruct (Rltb_spec (length3 r * length3 r * length3 r) (1/100000000)) as [B|B]; [reflexivity|].
  assert (W : 0 < length3 r). { destruct L0 as [L0|L0]; auto. rewrite <- L0 in B. lra. }
  set (w := length3 r) in *. assert (W3 : 0 < w * w * w) by (repeat apply Rmult_lt_0_compat; auto).
  assert (W5 : 0 < w ^ 5) by (apply pow_lt; auto).
  unfold p53. xn. rewrite xpow_fin by auto. rewrite Rpw_5third by auto. rewrite !xdiv_fin by lra. xn. rewrite !xdiv_fin by lra. xn.
  unfold point_doublet. fold r. fold w. unfold r, scal3, sub3, inner, px, py, pz. cbn [fst snd].
  f_equal; [f_equal|]; f_equal; field; split; lra.
Qed.
Theorem C65_point_doublet :
  forall m x0 p, let r := sub3 p x0 in
  (1/100000000 <= length3 r ^ 3 -> doublet_u (N := XN) (xv m) (xv x0) (xv p) = xv (point_doublet m x0 p)) /\
  (length3 r ^ 3 < 1/100000000 -> doublet_u (N := XN) (xv m) (xv x0) (xv p) = xv zero).
Proof.
  intros m x0 p r. rewrite doublet_X. fold r. split; intros H.
  - rewrite (proj2 (Rltb_false _ _)) by auto. reflexivity.
  - rewrite (proj2 (Rltb_true _ _)) by auto. reflexivity.
Qed.
Theorem C65_finite : forall m x0 p, exists u, doublet_u (N := XN) (xv m) (xv x0) (xv p) = xv u.
Proof. intros. rewrite doublet_X. destruct (Rltb _ _); eauto. Qed.
Lemma xv_inj u v : xv u = xv v -> u = v.
Proof. destruct u as [[u1 u2] u3], v as [[v1 v2] v3]. unfold xv, px, py, pz. cbn [fst snd]. intros H. injection H. congruence. Qed.
Theorem C65_linear :
  forall k m1 m2 x0 p u1 u2,
  doublet_u (N := XN) (xv m1) (xv x0) (xv p) = xv u1 -> doublet_u (N := XN) (xv m2) (xv x0) (xv p) = xv u2 ->
  doublet_u (N := XN) (xv (add3 m1 (scal3 k m2))) (xv x0) (xv p) = xv (add3 u1 (scal3 k u2)).
Proof.
  intros k m1 m2 x0 p u1 u2. rewrite !doublet_X. destruct (Rltb _ _).
  - intros H1 H2. apply xv_inj in H1, H2. subst. f_equal. unfold add3, scal3, zero, px, py, pz. cbn. f_equal; [f_equal|]; ring.
  - intros H1 H2. apply xv_inj in H1, H2. subst. f_equal. unfold point_doublet, inner, add3, sub3, scal3, px, py, pz. cbn [fst snd].
    f_equal; [f_equal|]; unfold Rdiv; ring.
Qed.
Lemma length3_opp (a b : R3) : length3 (sub3 a b) = length3 (sub3 b a).
Proof. unfold length3. f_equal. unfold inner, sub3, px, py, pz. cbn. ring. Qed.
Theorem C65_even_under_inversion :
  (* the field is the same at x0+r and x0-r *)
  forall m x0 r, doublet_u (N := XN) (xv m) (xv x0) (xv (add3 x0 r)) = doublet_u (N := XN) (xv m) (xv x0) (xv (sub3 x0 r)).
Proof.
  intros m x0 r. rewrite !doublet_X.
  assert (E1 : sub3 (add3 x0 r) x0 = r) by (destruct r as [[? ?] ?]; unfold sub3, add3, px, py, pz; cbn; f_equal; [f_equal|]; ring).
  assert (E2 : sub3 (sub3 x0 r) x0 = scal3 (-1) r) by (destruct r as [[? ?] ?]; unfold sub3, scal3, px, py, pz; cbn; f_equal; [f_equal|]; ring).
  assert (EL : length3 (scal3 (-1) r) = length3 r) by (unfold length3; f_equal; unfold inner, scal3, px, py, pz; cbn; ring).
  unfold point_doublet. rewrite E1, E2, EL. destruct (Rltb _ _); auto. f_equal.
  unfold inner, sub3, scal3, px, py, pz. cbn [fst snd]. f_equal; [f_equal|]; unfold Rdiv; ring.
Qed.
Lemma polar_X mz z0 r z : 
  let rho := sqrt (r * r + (z - z0) * (z - z0)) in
  doublet_u_polar_pt (N := XN) (Fin mz) (Fin z0) (Fin r, Fin z) =
  if Rltb (rho ^ 3) (1/100000000) then (Fin 0, Fin 0)
  else (Fin (3 * mz * (z - z0) * r / (4 * PI * rho ^ 5)), Fin (mz / (4 * PI) * (3 * (z - z0) * (z - z0) / rho ^ 5 - 1 / rho ^ 3))).
Proof.
  intros rho. pose proof PI_RGT_0. unfold doublet_u_polar_pt. cbv zeta.
  pose proof (Rsq_pos r). pose proof (Rsq_pos (z - z0)).
  assert (Q : nadd XN (sq (Fin r : XN)) (sq (nsub XN (Fin z) (Fin z0))) = Fin (r * r + (z - z0) * (z - z0))) by (xn; reflexivity).
  rewrite Q. rewrite pow32_X by lra. fold rho. assert (RR : rho * rho = r * r + (z - z0) * (z - z0)) by (apply sqrt_sqrt; lra). rewrite <- RR.
  assert (L0 : 0 <= rho) by apply sqrt_pos.
  change (nlt XN (Fin (rho * rho * rho)) (nQ XN 1 100000000)) with (Rltb (rho * rho * rho) (1/100000000)).
  replace (rho ^ 3) with (rho * rho * rho) by ring.
  destruct (Rltb_spec (rho * rho * rho) (1/100000000)) as [B|B]; [reflexivity|].
  assert (W : 0 < rho). { destruct L0 as [L0|L0]; auto. rewrite <- L0 in B. lra. }
  assert (W3 : 0 < rho * rho * rho) by (repeat apply Rmult_lt_0_compat; auto).
  assert (W5 : 0 < rho ^ 5) by (apply pow_lt; auto).
  unfold p53. xn. rewrite xpow_fin by auto. rewrite Rpw_5third by auto. rewrite !xdiv_fin by lra. xn. rewrite !xdiv_fin by lra. xn.
  f_equal; f_equal; field; split; lra.
Qed.
Theorem C65_polar_agrees_with_cartesian :
  (* an axial doublet on the z axis, both routines, any azimuth, any point (singular zone included) *)
  forall mz z0 r z psi, 0 <= r ->
  exists ur uz, doublet_u_polar (N := XN) (Fin mz) (Fin z0) [(Fin r, Fin z)] = Ok [(Fin ur, Fin uz)] /\
    doublet_u (N := XN) (xv (0, 0, mz)) (xv (0, 0, z0)) (xv (r * cos psi, r * sin psi, z)) = xv (ur * cos psi, ur * sin psi, uz).
Proof.
  intros mz z0 r z psi Hr. pose proof PI_RGT_0. pose proof (sin2_cos2 psi) as SC. unfold Rsqr in SC.
  unfold doublet_u_polar, any_neg. cbn [existsb fst orb map]. change (nlt XN (Fin r) (nZ XN 0)) with (Rltb r 0). rewrite (proj2 (Rltb_false r 0)) by lra. cbn [orb].
  rewrite polar_X, doublet_X.
  assert (EL : length3 (sub3 (r * cos psi, r * sin psi, z) (0, 0, z0)) = sqrt (r * r + (z - z0) * (z - z0))).
  { unfold length3, inner, sub3, px, py, pz. cbn [fst snd]. f_equal. rewrite !Rminus_0_r.
    transitivity (r * r * (sin psi * sin psi + cos psi * cos psi) + (z - z0) * (z - z0)); [ring|rewrite SC; ring]. }
  rewrite EL. set (rho := sqrt _). destruct (Rltb_spec (rho ^ 3) (1/100000000)) as [B|B].
  - exists 0, 0. split; auto. rewrite !Rmult_0_l. reflexivity.
  - eexists _, _. split; [reflexivity|].
    assert (L0 : 0 <= rho) by apply sqrt_pos.
    assert (W : 0 < rho). { destruct L0 as [L0|L0]; auto. rewrite <- L0 in B. replace (0 ^ 3) with 0 in B by ring. lra. }
    f_equal. unfold point_doublet. rewrite EL. fold rho. unfold scal3, sub3, inner, px, py, pz. cbn [fst snd].
    f_equal; [f_equal|]; field; split; lra.
Qed.
Theorem C65_polar_rejects_negative_radius :
  forall mz z0 ps r z, In (Fin r, Fin z) ps -> r < 0 ->
  doublet_u_polar (N := XN) mz z0 ps = Err (EException "Script meant for positive r").
Proof.
  intros mz z0 ps r z HI Hr. unfold doublet_u_polar, any_neg.
  replace (existsb _ ps) with true; auto. symmetry. apply existsb_exists. exists (Fin r, Fin z). split; auto. cbn [fst]. xn. apply Rltb_true. auto.
Qed.
Example C65_nonvacuous : 1/100000000 <= length3 (sub3 (1, 0, 0) (0, 0, 0)) ^ 3.
Proof.
  replace (length3 (sub3 (1, 0, 0) (0, 0, 0))) with 1; [lra|]. unfold length3, inner, sub3, px, py, pz. cbn [fst snd].
  replace ((1 - 0) * (1 - 0) + (0 - 0) * (0 - 0) + (0 - 0) * (0 - 0)) with 1 by ring. symmetry. apply sqrt_1.
Qed.
