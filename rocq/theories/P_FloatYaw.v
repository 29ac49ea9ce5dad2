(** * Wind angle and skew in binary64 arithmetic: C134 *)
From Coq Require Import Reals ZArith Lra Lia List Bool String.
From Flocq Require Import Core BinarySingleNaN.
From Verif Require Import Num NumF Spec M_Cylinder M_Solver M_Turbine L_List L_Turbine.
Import ListNotations.
Local Open Scope R_scope.

(** ** Ranges *)
Definition rg (k : Z) (x : R) : Prop := x = 0 \/ bpow radix2 (- k) <= Rabs x <= bpow radix2 k.
Lemma rg_le j k x : (j <= k)%Z -> rg j x -> rg k x.
Proof. intros H [A|[A B]]; [left; auto|right]. split; [eapply Rle_trans; [|exact A]|eapply Rle_trans; [exact B|]]; apply bpow_le; lia. Qed.
Lemma rg_mul j k x y : rg j x -> rg k y -> rg (j + k) (x * y).
Proof.
  intros [A|[A B]] [C|[C D]]; try (left; subst; ring). right. rewrite Rabs_mult. replace (- (j + k))%Z with (- j + - k)%Z by ring. rewrite !bpow_plus.
  pose proof (bpow_ge_0 radix2 (- j)). pose proof (bpow_ge_0 radix2 (- k)). pose proof (Rabs_pos x). pose proof (Rabs_pos y). split; apply Rmult_le_compat; auto.
Qed.
Lemma rg_inv k x : x <> 0 -> rg k x -> rg k (/ x).
Proof.
  intros N [A|[A B]]; [contradiction|right]. rewrite Rabs_inv. pose proof (bpow_gt_0 radix2 (- k)). pose proof (bpow_gt_0 radix2 k). pose proof (Rabs_pos_lt _ N).
  split; [rewrite bpow_opp; apply Rinv_le_contravar; auto|]. replace (bpow radix2 k) with (/ bpow radix2 (- k)) by (rewrite bpow_opp, Rinv_inv; auto).
  apply Rinv_le_contravar; auto.
Qed.
Lemma rg_sqrt k x : (0 <= k)%Z -> 0 <= x -> rg k x -> rg k (sqrt x).
Proof.
  intros K P [A|[A B]]; [left; subst; apply sqrt_0|right]. rewrite Rabs_pos_eq in A, B by auto. rewrite Rabs_pos_eq by apply sqrt_pos.
  assert (S : forall e, sqrt (bpow radix2 (e + e)) = bpow radix2 e) by (intros e; rewrite bpow_plus; apply sqrt_square, bpow_ge_0).
  rewrite <- (S (- k)%Z), <- (S k). split; apply sqrt_le_1_alt.
  - eapply Rle_trans; [|exact A]. apply bpow_le; lia.
  - eapply Rle_trans; [exact B|]. apply bpow_le; lia.
Qed.
Lemma rg_plus k x y : 0 <= x -> 0 <= y -> rg k x -> rg k y -> rg (k + 1) (x + y).
Proof.
  intros X Y A B. assert (M : rg k x -> 0 <= x -> x <= bpow radix2 k) by (intros [-> |[? Q]] ?; [apply bpow_ge_0|rewrite Rabs_pos_eq in Q; auto]).
  assert (M' : rg k y -> 0 <= y -> y <= bpow radix2 k) by (intros [-> |[? Q]] ?; [apply bpow_ge_0|rewrite Rabs_pos_eq in Q; auto]).
  assert (U : x + y <= bpow radix2 (k + 1)) by (rewrite bpow_plus; change (bpow radix2 1) with 2; specialize (M A X); specialize (M' B Y); lra).
  assert (D : forall z, rg k z -> 0 <= z -> z = 0 \/ bpow radix2 (- (k + 1)) <= z).
  { intros z [-> |[Q _]] Hz; [left; auto|right]. rewrite Rabs_pos_eq in Q by auto. eapply Rle_trans; [|exact Q]. apply bpow_le; lia. }
  unfold rg. rewrite (Rabs_pos_eq (x + y)) by lra. destruct (D x A X), (D y B Y); try (left; lra); right; lra.
Qed.
Lemma w53_20 : w53 ^ 20 <= 2.
Proof.
  assert (W : w53 <= 1 + / 100).
  { unfold w53. apply Rmult_le_reg_r with (1 - u53); [unfold u53; lra|]. rewrite Rinv_l by (unfold u53; lra). unfold u53; lra. }
  pose proof w53_gt. apply Rle_trans with ((1 + / 100) ^ 20); [apply pow_incr; lra|lra].
Qed.
Lemma fac_20 n t : (n <= 20)%nat -> fac n t -> / 2 <= t <= 2.
Proof.
  intros H K. apply (fac_le n 20) in K; auto. destruct K as [A B]. pose proof w53_20. pose proof (w53_pow 20). split; [|lra].
  eapply Rle_trans; [|exact A]. apply Rinv_le_contravar; lra.
Qed.
Lemma rg_fac n k x t : (n <= 20)%nat -> rg k x -> fac n t -> rg (k + 1) (x * t).
Proof.
  intros H A B. pose proof (fac_20 _ _ H B). apply rg_mul; auto. right. rewrite Rabs_pos_eq by lra. change (bpow radix2 (- (1))) with (/ 2). change (bpow radix2 1) with 2. lra.
Qed.
Lemma rg_rel k x : (k <= 1022)%Z -> rg k x -> (x = 0 \/ tiny <= Rabs x) /\ Rabs x <= big.
Proof.
  intros K [-> |[A B]].
  - split; [left; reflexivity|]. rewrite Rabs_R0. apply bpow_ge_0.
  - split; [right; eapply Rle_trans; [|exact A]; apply bpow_le; lia|]. eapply Rle_trans; [exact B|]. apply bpow_le; lia.
Qed.
(** ** Operations with relative error *)
Lemma rnd_fac k x : (k <= 1022)%Z -> rg k x -> exists t, fac 1 t /\ rnd x = x * t.
Proof. intros K H. destruct (rg_rel k x K H) as [A _]. destruct (rnd_rel x A) as (d & D & E). exists (1 + d). split; [apply fac_d; auto|exact E]. Qed.
Lemma mul_rel k a b x y : (k <= 1022)%Z -> is64 a x -> is64 b y -> rg k (x * y) -> exists t, fac 1 t /\ is64 (bfmul a b) (x * y * t).
Proof. intros K A B H. destruct (rnd_fac k _ K H) as (t & T1 & T2). exists t. split; auto. rewrite <- T2. apply mul64; auto. apply (rg_rel k); auto. Qed.
Lemma div_rel k a b x y : (k <= 1022)%Z -> is64 a x -> is64 b y -> y <> 0 -> rg k (x / y) -> exists t, fac 1 t /\ is64 (bfdiv a b) (x / y * t).
Proof. intros K A B N H. destruct (rnd_fac k _ K H) as (t & T1 & T2). exists t. split; auto. rewrite <- T2. apply div64; auto. apply (rg_rel k); auto. Qed.
Lemma sqrt_rel k a x : (0 <= k <= 1022)%Z -> is64 a x -> 0 <= x -> rg k x -> exists t, fac 1 t /\ is64 (bfsqrt a) (sqrt x * t).
Proof.
  intros K A P H. destruct (rnd_fac k (sqrt x)) as (t & T1 & T2); [lia|apply rg_sqrt; auto; lia|]. exists t. split; auto. rewrite <- T2. apply sqrt64; auto.
Qed.
Lemma add_rel a b x y : is64 a x -> is64 b y -> Rabs (x + y) <= big -> exists t, fac 1 t /\ is64 (bfadd a b) ((x + y) * t).
Proof.
  intros A B H. destruct (rnd_plus x y (is64_fmt _ _ A) (is64_fmt _ _ B)) as (d & D & E). exists (1 + d). split; [apply fac_d; auto|]. rewrite <- E. apply add64; auto.
Qed.
(** ** Exact operations *)
Lemma rnd_is a x : is64 a x -> rnd x = x. Proof. intros H. apply rnd_id. eapply is64_fmt; eauto. Qed.
Lemma is64_big a x : is64 a x -> Rabs x < bpow radix2 1024. Proof. intros [_ <-]. apply abs_B2R_lt_emax. Qed.
Lemma add64' a b x y z : is64 a x -> is64 b y -> x + y = z -> fmt z -> Rabs z < bpow radix2 1024 -> is64 (bfadd a b) z.
Proof.
  intros [A <-] [B <-] <- H M. pose proof (Bplus_correct 53 1024 pgt plt mode_NE a b A B) as C. rewrite Rlt_bool_true in C.
  - destruct C as (C & D & _). split; [exact D|]. unfold bfadd. rewrite C. apply rnd_id; auto.
  - change (Rabs (rnd (B2R a + B2R b)) < bpow radix2 1024). rewrite rnd_id; auto.
Qed.
Lemma sub64' a b x y z : is64 a x -> is64 b y -> x - y = z -> fmt z -> Rabs z < bpow radix2 1024 -> is64 (bfsub a b) z.
Proof.
  intros [A <-] [B <-] <- H M. pose proof (Bminus_correct 53 1024 pgt plt mode_NE a b A B) as C. rewrite Rlt_bool_true in C.
  - destruct C as (C & D & _). split; [exact D|]. unfold bfsub. rewrite C. apply rnd_id; auto.
  - change (Rabs (rnd (B2R a - B2R b)) < bpow radix2 1024). rewrite rnd_id; auto.
Qed.
Lemma mul64' a b x y z : is64 a x -> is64 b y -> x * y = z -> fmt z -> Rabs z < bpow radix2 1024 -> is64 (bfmul a b) z.
Proof.
  intros [A <-] [B <-] <- H M. pose proof (Bmult_correct 53 1024 pgt plt mode_NE a b) as C. rewrite Rlt_bool_true in C.
  - destruct C as (C & D & _). split; [unfold bfmul; rewrite D, A, B; reflexivity|]. unfold bfmul. rewrite C. apply rnd_id; auto.
  - change (Rabs (rnd (B2R a * B2R b)) < bpow radix2 1024). rewrite rnd_id; auto.
Qed.
Lemma z1024 : Rabs 0 < bpow radix2 1024. Proof. rewrite Rabs_R0. apply bpow_gt_0. Qed.
Lemma add_r0 a b x : is64 a x -> is64 b 0 -> is64 (bfadd a b) x.
Proof. intros A B. apply (add64' a b x 0 x); auto; [ring|eapply is64_fmt; eauto|eapply is64_big; eauto]. Qed.
Lemma sub_r0 a b x : is64 a x -> is64 b 0 -> is64 (bfsub a b) x.
Proof. intros A B. apply (sub64' a b x 0 x); auto; [ring|eapply is64_fmt; eauto|eapply is64_big; eauto]. Qed.
Lemma sub_eq a b x : is64 a x -> is64 b x -> is64 (bfsub a b) 0.
Proof. intros A B. apply (sub64' a b x x 0); auto; [ring|apply fmt_0|apply z1024]. Qed.
Lemma mul_r0 a b x : is64 a x -> is64 b 0 -> is64 (bfmul a b) 0.
Proof. intros A B. apply (mul64' a b x 0 0); auto; [ring|apply fmt_0|apply z1024]. Qed.
Lemma mul_l0 a b x : is64 a 0 -> is64 b x -> is64 (bfmul a b) 0.
Proof. intros A B. apply (mul64' a b 0 x 0); auto; [ring|apply fmt_0|apply z1024]. Qed.
Lemma mul_r1 a b x : is64 a x -> is64 b 1 -> is64 (bfmul a b) x.
Proof. intros A B. apply (mul64' a b x 1 x); auto; [ring|eapply is64_fmt; eauto|eapply is64_big; eauto]. Qed.
Lemma div_l0 a b y : is64 a 0 -> is64 b y -> y <> 0 -> is64 (bfdiv a b) 0.
Proof.
  intros A B N. assert (E : 0 / y = 0) by (field; auto). pose proof (div64 a b 0 y A B N) as D. rewrite E, Rabs_R0, rnd_0 in D. apply D. apply bpow_ge_0.
Qed.

(** ** Horizontal vectors *)
Definition hyp (x y : R) : R := sqrt (x * x + y * y).
Lemma hyp_pos x y : x <> 0 \/ y <> 0 -> 0 < hyp x y.
Proof. intros H. apply sqrt_lt_R0. pose proof (Rle_0_sqr x) as A. pose proof (Rle_0_sqr y) as B. unfold Rsqr in *. destruct H as [H|H]; pose proof (Rsqr_pos_lt _ H) as C; unfold Rsqr in C; lra. Qed.
Lemma hyp_sq x y : hyp x y * hyp x y = x * x + y * y.
Proof. apply sqrt_sqrt. pose proof (Rle_0_sqr x) as A. pose proof (Rle_0_sqr y) as B. unfold Rsqr in *. lra. Qed.
Section Vec.
  Context (L : mlib).
  Notation FL := (FN L).
  Lemma norm_h (a b c : F) x y : is64 a x -> is64 b y -> is64 c 0 -> rg 100 x -> rg 100 y -> x <> 0 \/ y <> 0 ->
    exists t, fac 2 t /\ is64 (norm (N := FL) (a, b, c)) (hyp x y * t) /\ rg 201 (hyp x y).
  Proof.
    intros A B C Rx Ry N.
    assert (Qx : 0 <= x * x) by apply Rle_0_sqr. assert (Qy : 0 <= y * y) by apply Rle_0_sqr.
    assert (Gx : rg 200 (x * x)) by (apply (rg_mul 100 100); auto). assert (Gy : rg 200 (y * y)) by (apply (rg_mul 100 100); auto).
    destruct (mul_rel 200 a a x x ltac:(lia) A A Gx) as (t1 & T1 & M1). destruct (mul_rel 200 b b y y ltac:(lia) B B Gy) as (t2 & T2 & M2).
    destruct (fac_plus 1 (x * x) (y * y) t1 t2) as (t3 & T3 & E3); auto. { apply Rmult_le_pos; auto. }
    assert (G3 : rg 201 (x * x + y * y)) by (apply (rg_plus 200); auto).
    destruct (add_rel _ _ _ _ M1 M2) as (t4 & T4 & M4). { rewrite E3. apply (rg_rel 202); [lia|]. apply (rg_fac 1 201); [lia|auto|auto]. }
    rewrite E3 in M4. pose proof (mul_l0 c c 0 C C) as M5. pose proof (add_r0 _ _ _ M4 M5) as M6.
    assert (T5 : fac 2 (t3 * t4)) by (apply (fac_mul 1 1); auto).
    rewrite Rmult_assoc in M6. pose proof (fac_pos _ _ T5) as P5.
    destruct (sqrt_rel 202 _ _ ltac:(lia) M6) as (t6 & T6 & M7). { apply Rmult_le_pos; lra. } { apply (rg_fac 2 201); [lia|auto|auto]. }
    exists (sqrt (t3 * t4) * t6). split; [apply (fac_mul 1 1); auto; apply fac_sqrt; auto|]. split.
    - rewrite sqrt_mult_alt in M7 by lra. rewrite Rmult_assoc in M7. exact M7.
    - apply rg_sqrt; [lia|lra|auto].
  Qed.
  Lemma unit_h (a b c : F) x y : is64 a x -> is64 b y -> is64 c 0 -> rg 100 x -> rg 100 y -> x <> 0 \/ y <> 0 ->
    exists u0 u1 u2 s t, vdivs (N := FL) (a, b, c) (norm (N := FL) (a, b, c)) = (u0, u1, u2) /\ fac 3 s /\ fac 3 t /\
      is64 u0 (x / hyp x y * s) /\ is64 u1 (y / hyp x y * t) /\ is64 u2 0 /\ rg 301 (x / hyp x y) /\ rg 301 (y / hyp x y).
  Proof.
    intros A B C Rx Ry N. destruct (norm_h a b c x y A B C Rx Ry N) as (t & T & M & G). pose proof (hyp_pos x y N) as P. pose proof (fac_pos _ _ T) as Pt.
    assert (NZ : hyp x y * t <> 0) by (apply Rmult_integral_contrapositive_currified; lra).
    assert (Gi : rg 201 (/ hyp x y)) by (apply rg_inv; [lra|auto]).
    assert (Gx : rg 301 (x / hyp x y)) by (apply (rg_mul 100 201); auto). assert (Gy : rg 301 (y / hyp x y)) by (apply (rg_mul 100 201); auto).
    pose proof (fac_inv _ _ T) as Ti.
    assert (E : forall z, z / (hyp x y * t) = z / hyp x y * / t) by (intros; field; lra).
    destruct (div_rel 302 a _ x _ ltac:(lia) A M NZ) as (s1 & S1 & D1). { rewrite E. apply (rg_fac 2 301); [lia|auto|auto]. }
    destruct (div_rel 302 b _ y _ ltac:(lia) B M NZ) as (s2 & S2 & D2). { rewrite E. apply (rg_fac 2 301); [lia|auto|auto]. }
    rewrite E, Rmult_assoc in D1, D2. pose proof (div_l0 c _ _ C M NZ) as D3.
    exists (bfdiv a (norm (N := FL) (a, b, c))), (bfdiv b (norm (N := FL) (a, b, c))), (bfdiv c (norm (N := FL) (a, b, c))), (/ t * s1), (/ t * s2).
    split; [reflexivity|]. split; [apply (fac_mul 2 1); auto|]. split; [apply (fac_mul 2 1); auto|]. auto.
  Qed.
End Vec.

(** ** The dot product of two computed unit vectors *)
Lemma w8 : w53 ^ 8 - 1 <= 9 * u53.
Proof.
  assert (W : w53 <= 1 + u53 * (1 + / 100)).
  { unfold w53. apply Rmult_le_reg_r with (1 - u53); [unfold u53; lra|]. rewrite Rinv_l by (unfold u53; lra). unfold u53; lra. }
  pose proof w53_gt. apply Rle_trans with ((1 + u53 * (1 + / 100)) ^ 8 - 1); [apply Rplus_le_compat_r; apply pow_incr; lra|]. unfold u53; lra.
Qed.
Lemma sum_err k A B s t : fac k s -> fac k t -> Rabs (A * s + B * t - (A + B)) <= (w53 ^ k - 1) * (Rabs A + Rabs B).
Proof.
  intros S T. replace (A * s + B * t - (A + B)) with (A * (s - 1) + B * (t - 1)) by ring. eapply Rle_trans; [apply Rabs_triang|]. rewrite !Rabs_mult.
  pose proof (fac_err _ _ S). pose proof (fac_err _ _ T). pose proof (Rabs_pos A). pose proof (Rabs_pos B). rewrite Rmult_plus_distr_l.
  apply Rplus_le_compat; rewrite Rmult_comm; apply Rmult_le_compat_r; auto.
Qed.
Lemma cs2 X Y P Q : X * X + Y * Y = 1 -> P * P + Q * Q = 1 -> Rabs (X * P) + Rabs (Y * Q) <= 1.
Proof.
  intros H K. rewrite !Rabs_mult. pose proof (Rle_0_sqr (Rabs X - Rabs P)) as A. pose proof (Rle_0_sqr (Rabs Y - Rabs Q)) as B. unfold Rsqr in A, B.
  assert (S : forall x, Rabs x * Rabs x = x * x) by (intros; rewrite <- Rabs_mult; apply Rabs_pos_eq, Rle_0_sqr).
  pose proof (S X). pose proof (S Y). pose proof (S P). pose proof (S Q). lra.
Qed.
Lemma small_big x : Rabs x <= 4 -> Rabs x <= big.
Proof. intros H. eapply Rle_trans; [exact H|]. change 4 with (bpow radix2 2). apply bpow_le; lia. Qed.
Section Dot.
  Context (L : mlib).
  Notation FL := (FN L).
  Lemma dot_h (e0 e1 e2 h0 h1 h2 : F) X Y P Q s t s' t' :
    is64 e0 (X * s) -> is64 e1 (Y * t) -> is64 e2 0 -> is64 h0 (P * s') -> is64 h1 (Q * t') -> is64 h2 0 ->
    fac 3 s -> fac 3 t -> fac 3 s' -> fac 3 t' -> rg 301 X -> rg 301 Y -> rg 301 P -> rg 301 Q ->
    X * X + Y * Y = 1 -> P * P + Q * Q = 1 ->
    exists d, is64 (dot (N := FL) (e0, e1, e2) (h0, h1, h2)) d /\ Rabs (d - (X * P + Y * Q)) <= 9 * u53.
  Proof.
    intros E0 E1 E2 H0 H1 H2 S T S' T' GX GY GP GQ N1 N2.
    assert (G : forall x y f g, rg 301 x -> rg 301 y -> fac 3 f -> fac 3 g -> rg 603 (x * f * (y * g))).
    { intros x y f g Gx Gy Ff Fg. replace (x * f * (y * g)) with (x * y * (f * g)) by ring. apply (rg_fac 6 602); [lia| |apply (fac_mul 3 3); auto]. apply (rg_mul 301 301); auto. }
    destruct (mul_rel 603 _ _ _ _ ltac:(lia) E0 H0 (G X P s s' GX GP S S')) as (m1 & M1 & D1).
    destruct (mul_rel 603 _ _ _ _ ltac:(lia) E1 H1 (G Y Q t t' GY GQ T T')) as (m2 & M2 & D2).
    assert (F1 : fac 7 (s * s' * m1)) by (apply (fac_mul 6 1); auto; apply (fac_mul 3 3); auto).
    assert (F2 : fac 7 (t * t' * m2)) by (apply (fac_mul 6 1); auto; apply (fac_mul 3 3); auto).
    replace (X * s * (P * s') * m1) with (X * P * (s * s' * m1)) in D1 by ring. replace (Y * t * (Q * t') * m2) with (Y * Q * (t * t' * m2)) in D2 by ring.
    pose proof (sum_err 7 (X * P) (Y * Q) _ _ F1 F2) as Er. pose proof (cs2 X Y P Q N1 N2) as CS.
    set (z := X * P * (s * s' * m1) + Y * Q * (t * t' * m2)) in *.
    assert (W7 : w53 ^ 7 - 1 <= 9 * u53) by (eapply Rle_trans; [|exact w8]; apply Rplus_le_compat_r; apply Rle_pow; [pose proof w53_gt; lra|lia]).
    assert (Er' : Rabs (z - (X * P + Y * Q)) <= w53 ^ 7 - 1).
    { eapply Rle_trans; [exact Er|]. rewrite <- (Rmult_1_r (w53 ^ 7 - 1)) at 2. apply Rmult_le_compat_l; [pose proof (w53_pow 7); lra|exact CS]. }
    assert (D0 : Rabs (X * P + Y * Q) <= 1) by (eapply Rle_trans; [apply Rabs_triang|exact CS]).
    assert (Z0 : Rabs z <= w53 ^ 7). { replace z with ((X * P + Y * Q) + (z - (X * P + Y * Q))) by ring. eapply Rle_trans; [apply Rabs_triang|]. lra. }
    assert (Z1 : Rabs z <= 2) by (unfold u53 in W7; lra).
    destruct (rnd_plus _ _ (is64_fmt _ _ D1) (is64_fmt _ _ D2)) as (d & Hd & Ed). fold z in Ed.
    pose proof (add64 _ _ _ _ D1 D2 (small_big z ltac:(lra))) as D3. fold z in D3. rewrite Ed in D3.
    pose proof (add_r0 _ _ _ D3 (mul_r0 _ _ _ E2 H2)) as D4.
    exists (z * (1 + d)). split; [exact D4|].
    replace (z * (1 + d) - (X * P + Y * Q)) with ((z - (X * P + Y * Q)) + d * z) by ring. eapply Rle_trans; [apply Rabs_triang|]. rewrite Rabs_mult.
    assert (Rabs d * Rabs z <= u53 * w53 ^ 7) by (apply Rmult_le_compat; auto; apply Rabs_pos).
    assert (w53 ^ 7 + u53 * w53 ^ 7 <= w53 ^ 8).
    { replace (w53 ^ 8) with (w53 ^ 7 * w53) by ring. assert (1 + u53 <= w53) by (pose proof (fac_d u53) as K; rewrite Rabs_pos_eq in K by (pose proof u53_pos; lra); destruct (K (Rle_refl _)) as [_ K2]; rewrite pow_1 in K2; exact K2).
      replace (w53 ^ 7 + u53 * w53 ^ 7) with (w53 ^ 7 * (1 + u53)) by ring. apply Rmult_le_compat_l; [pose proof (w53_pow 7); lra|auto]. }
    pose proof w8. lra.
  Qed.
End Dot.
(** ** The arc cosine is Hoelder continuous *)
Lemma acos_mono x y : -1 <= x <= 1 -> -1 <= y <= 1 -> x <= y -> acos y <= acos x.
Proof.
  intros Hx Hy H. destruct (Rle_dec (acos y) (acos x)) as [|N]; auto. apply Rnot_le_lt in N. exfalso.
  pose proof (acos_bound x). pose proof (acos_bound y). pose proof (cos_decreasing_1 (acos x) (acos y) ltac:(lra) ltac:(lra) ltac:(lra) ltac:(lra) N) as C.
  rewrite !cos_acos in C by auto. lra.
Qed.
Lemma acos_holder x y : -1 <= x <= 1 -> -1 <= y <= 1 -> Rabs (x - y) <= 14 * u53 -> Rabs (acos x - acos y) <= 6 / 10 ^ 8.
Proof.
  intros Hx Hy. revert x y Hx Hy.
  assert (G : forall x y, -1 <= x <= 1 -> -1 <= y <= 1 -> x <= y -> y - x <= 14 * u53 -> acos x - acos y <= 6 / 10 ^ 8).
  { intros x y Hx Hy Hl H. destruct (Rle_dec (acos x - acos y) (6 / 10 ^ 8)) as [|N]; auto. apply Rnot_le_lt in N. exfalso.
    pose proof (acos_bound x) as [Bx1 Bx2]. pose proof (acos_bound y) as [By1 By2].
    set (al := acos x) in *. set (be := acos y) in *. assert (Ex : x = cos al) by (symmetry; apply cos_acos; auto). assert (Ey : y = cos be) by (symmetry; apply cos_acos; auto).
    set (D := al - be) in *. assert (PI3 : 3 < PI) by (pose proof PI2_3_2; unfold PI2 in *; lra).
    assert (D1 : D <= PI) by (unfold D; lra).
    assert (C : 1 - cos D <= y - x).
    { rewrite Ex, Ey. replace D with (2 * (D / 2)) at 1 by field. rewrite cos_2a_sin. rewrite form2.
      replace ((be - al) / 2) with (- (D / 2)) by (unfold D; field). rewrite sin_neg.
      replace ((be + al) / 2) with (be + D / 2) by (unfold D; field).
      assert (S0 : 0 <= sin (D / 2)) by (apply sin_ge_0; lra).
      assert (S1 : sin (D / 2) <= sin (be + D / 2)).
      { destruct (Rle_dec (be + D / 2) (PI / 2)) as [K|K].
        - apply sin_incr_1; unfold D in *; lra.
        - apply Rnot_le_lt in K. replace (sin (be + D / 2)) with (sin (PI - (be + D / 2))) by (rewrite sin_PI_x; reflexivity). apply sin_incr_1; unfold D in *; lra. }
      assert (sin (D / 2) * sin (D / 2) <= sin (be + D / 2) * sin (D / 2)) by (apply Rmult_le_compat_r; auto). lra. }
    assert (M : cos D <= cos (6 / 10 ^ 8)) by (apply cos_decr_1; lra).
    pose proof (proj2 (cos_bound (6 / 10 ^ 8) 0 ltac:(lra) ltac:(lra))) as CB. unfold cos_approx, cos_term in CB. cbn -[pow] in CB. 
    assert (E2 : INR (fact 2) = 2) by (cbn; lra). assert (E4 : INR (fact 4) = 24) by (cbn; lra).
    change (2 * 1)%nat with 2%nat in CB. change (2*2)%nat with 4%nat in CB. 
    unfold u53 in *. lra. }
  intros x y Hx Hy H. apply Rabs_le. destruct (Rle_dec x y) as [K|K].
  - rewrite Rabs_left1 in H by lra. pose proof (acos_mono x y Hx Hy K). pose proof (G x y Hx Hy K ltac:(lra)). lra.
  - rewrite Rabs_pos_eq in H by lra. pose proof (acos_mono y x Hy Hx ltac:(lra)). pose proof (G y x Hy Hx ltac:(lra) ltac:(lra)). lra.
Qed.

(** ** The wind angle *)
Section Yaw.
  Context (L : mlib).
  Notation FL := (FN L).
  (** the library's arccos: within 1e-9 on [-1,1], NaN outside *)
  Definition good_acos : Prop := forall (a : F) x, is64 a x ->
    (-1 <= x <= 1 -> exists y, is64 (l_acos L a) y /\ Rabs (y - acos x) <= / 10 ^ 9) /\ (~ (-1 <= x <= 1) -> l_acos L a = fnan).
  (** a turbine with a vertical third axis and a horizontal shaft (p,q,0) in the wind (a,b,c) *)
  Definition horizontal (e_shaft e_vert U0 : F * F * F) (p q a b c : R) : Prop :=
    let '(s0, s1, s2) := e_shaft in let '(v0, v1, v2) := e_vert in let '(w0, w1, w2) := U0 in
    is64 s0 p /\ is64 s1 q /\ is64 s2 0 /\ is64 v0 0 /\ is64 v1 0 /\ is64 v2 1 /\ is64 w0 a /\ is64 w1 b /\ is64 w2 c /\
    rg 100 p /\ rg 100 q /\ (p <> 0 \/ q <> 0) /\ rg 100 a /\ rg 100 b /\ (a <> 0 \/ b <> 0) /\ rg 100 c.
  Lemma horz_built e_shaft e_vert U0 p q a b c : horizontal e_shaft e_vert U0 p q a b c ->
    exists h0 h1 h2 s t, horz_of (N := FL) e_shaft e_vert = (h0, h1, h2) /\ fac 3 s /\ fac 3 t /\
      is64 h0 (p / hyp p q * s) /\ is64 h1 (q / hyp p q * t) /\ is64 h2 0 /\ rg 301 (p / hyp p q) /\ rg 301 (q / hyp p q).
  Proof.
    destruct e_shaft as [[s0 s1] s2], e_vert as [[v0 v1] v2], U0 as [[w0 w1] w2]. intros (S0 & S1 & S2 & V0 & V1 & V2 & _ & _ & _ & Gp & Gq & Nz & _).
    assert (D : is64 (dot (N := FL) (s0, s1, s2) (v0, v1, v2)) 0).
    { exact (add_r0 _ _ _ (add_r0 _ _ _ (mul_r0 _ _ _ S0 V0) (mul_r0 _ _ _ S1 V1)) (mul_l0 _ _ _ S2 V2)). }
    unfold horz_of, vsubs. set (d := dot (N := FL) (s0, s1, s2) (v0, v1, v2)) in *.
    exact (unit_h L _ _ _ p q (sub_r0 _ _ _ S0 D) (sub_r0 _ _ _ S1 D) (sub_r0 _ _ _ S2 D) Gp Gq Nz).
  Qed.
  Lemma wind_unit e_shaft e_vert U0 p q a b c : horizontal e_shaft e_vert U0 p q a b c ->
    exists e0 e1 e2 s t, (let u := vsub (N := FL) U0 (vscale (N := FL) (dot (N := FL) U0 e_vert) e_vert) in vdivs (N := FL) u (norm (N := FL) u)) = (e0, e1, e2) /\ fac 3 s /\ fac 3 t /\
      is64 e0 (a / hyp a b * s) /\ is64 e1 (b / hyp a b * t) /\ is64 e2 0 /\ rg 301 (a / hyp a b) /\ rg 301 (b / hyp a b).
  Proof.
    destruct e_shaft as [[s0 s1] s2], e_vert as [[v0 v1] v2], U0 as [[w0 w1] w2]. intros (S0 & S1 & S2 & V0 & V1 & V2 & W0 & W1 & W2 & Gp & Gq & Nz & Ga & Gb & Nw & Gc).
    assert (D : is64 (dot (N := FL) (w0, w1, w2) (v0, v1, v2)) c).
    { pose proof (add_r0 _ _ _ (mul_r0 _ _ _ W0 V0) (mul_r0 _ _ _ W1 V1)) as Z. pose proof (mul_r1 _ _ _ W2 V2) as K.
      refine (add64' _ _ 0 c c Z K _ (is64_fmt _ _ W2) (is64_big _ _ W2)). ring. }
    unfold vscale, vsub. set (d := dot (N := FL) (w0, w1, w2) (v0, v1, v2)) in *.
    exact (unit_h L _ _ _ a b (sub_r0 _ _ _ W0 (mul_r0 _ _ _ D V0)) (sub_r0 _ _ _ W1 (mul_r0 _ _ _ D V1)) (sub_eq _ _ _ W2 (mul_r1 _ _ _ D V2)) Ga Gb Nw).
  Qed.
  Lemma unit_sq x y : x <> 0 \/ y <> 0 -> x / hyp x y * (x / hyp x y) + y / hyp x y * (y / hyp x y) = 1.
  Proof. intros H. pose proof (hyp_pos x y H). pose proof (hyp_sq x y) as E. field_simplify; [|lra]. rewrite <- !Rsqr_pow2. unfold Rsqr. rewrite <- E. field. lra. Qed.
  (** the exact cosine of the wind angle *)
  Definition cosw (p q a b : R) : R := a / hyp a b * (p / hyp p q) + b / hyp a b * (q / hyp p q).
  Lemma cosw_le p q a b : p <> 0 \/ q <> 0 -> a <> 0 \/ b <> 0 -> -1 <= cosw p q a b <= 1.
  Proof.
    intros H K. pose proof (cs2 _ _ _ _ (unit_sq a b K) (unit_sq p q H)) as C. unfold cosw. apply Rabs_le_inv. eapply Rle_trans; [apply Rabs_triang|exact C].
  Qed.
  Lemma sign64 (z : F) r : is64 z r -> is64 (fsign z) (if Rlt_bool 0 r then 1 else if Rlt_bool r 0 then -1 else 0).
  Proof.
    pose proof (Z64 1 ltac:(reflexivity)) as O. change (fme 1 0) with fone in O. intros [A <-]. destruct z as [s|s| |s m e H]; try discriminate.
    - cbn [B2R fsign]. rewrite Rlt_bool_false by apply Rle_refl. split; reflexivity.
    - cbn [B2R fsign]. destruct s; cbn [cond_Zopp].
      + assert (K : F2R (Float radix2 (- Z.pos m) e) < 0) by (apply F2R_lt_0; reflexivity).
        rewrite (Rlt_bool_false 0) by lra. rewrite Rlt_bool_true by lra. apply (opp64 _ 1). exact O.
      + assert (K : 0 < F2R (Float radix2 (Z.pos m) e)) by (apply F2R_gt_0; reflexivity). rewrite Rlt_bool_true by exact K. exact O.
  Qed.
  (** the vertical component of horz x wind *)
  Lemma cross_sign e_shaft e_vert U0 p q a b c h0 h1 h2 s t : horizontal e_shaft e_vert U0 p q a b c ->
    fac 3 s -> fac 3 t -> is64 h0 (p / hyp p q * s) -> is64 h1 (q / hyp p q * t) -> is64 h2 0 -> rg 301 (p / hyp p q) -> rg 301 (q / hyp p q) ->
    exists r, is64 (dot (N := FL) (cross (N := FL) (h0, h1, h2) U0) e_vert) r /\
      ((w53 ^ 4 - 1) * (Rabs (p * b) + Rabs (q * a)) < Rabs (p * b - q * a) -> 0 < r * (p * b - q * a)).
  Proof.
    destruct e_shaft as [[s0 s1] s2], e_vert as [[v0 v1] v2], U0 as [[w0 w1] w2]. intros (S0 & S1 & S2 & V0 & V1 & V2 & W0 & W1 & W2 & Gp & Gq & Nz & Ga & Gb & Nw & Gc) Fs Ft H0 H1 H2 GP GQ.
    assert (B : forall k x, (k <= 500)%Z -> rg k x -> Rabs x <= bpow radix2 500).
    { intros k x K [-> |[_ Q]]; [rewrite Rabs_R0; apply bpow_ge_0|]. eapply Rle_trans; [exact Q|apply bpow_le; lia]. }
    assert (BB : forall x y, Rabs x <= bpow radix2 500 -> Rabs y <= bpow radix2 500 -> Rabs (x - y) <= big).
    { intros x y X Y. unfold Rminus. eapply Rle_trans; [apply Rabs_triang|]. rewrite Rabs_Ropp. apply Rle_trans with (bpow radix2 501); [|apply bpow_le; lia].
      replace 501%Z with (500 + 1)%Z by reflexivity. rewrite bpow_plus. change (bpow radix2 1) with 2. lra. }
    assert (M : forall f (u : F) X g Y, is64 u (X * f) -> fac 3 f -> rg 301 X -> forall v, is64 v Y -> rg 100 Y -> g = X * Y -> exists m, fac 4 m /\ is64 (bfmul u v) (g * m) /\ Rabs (g * m) <= bpow radix2 500).
    { intros f u X g Y U Ff GX v V GY ->.
      assert (G1 : rg 402 (X * f * Y)) by (replace (X * f * Y) with (X * Y * f) by ring; apply (rg_fac 3 401); [lia|apply (rg_mul 301 100); auto|auto]).
      destruct (mul_rel 402 u v (X * f) Y ltac:(lia) U V G1) as (m & Fm & D).
      exists (f * m). split; [apply (fac_mul 3 1); auto|]. replace (X * Y * (f * m)) with (X * f * Y * m) by ring. split; [exact D|]. apply (B 403%Z); [lia|]. apply (rg_fac 1 402); [lia|auto|auto]. }
    destruct (M s h0 _ _ _ H0 Fs GP w1 W1 Gb eq_refl) as (m1 & F1 & D1 & N1).
    destruct (M t h1 _ _ _ H1 Ft GQ w0 W0 Ga eq_refl) as (m2 & F2 & D2 & N2).
    destruct (M t h1 _ _ _ H1 Ft GQ w2 W2 Gc eq_refl) as (m3 & F3 & D3 & N3).
    destruct (M s h0 _ _ _ H0 Fs GP w2 W2 Gc eq_refl) as (m4 & F4 & D4 & N4).
    pose proof (sub_r0 _ _ _ D3 (mul_l0 _ _ _ H2 W1)) as C0.
    assert (C1 : exists y, is64 (bfsub (bfmul h2 w0) (bfmul h0 w2)) y).
    { eexists. apply (sub64 _ _ _ _ (mul_l0 _ _ _ H2 W0) D4). apply BB; auto. rewrite Rabs_R0. apply bpow_ge_0. }
    destruct C1 as (y1 & C1).
    pose proof (sub64 _ _ _ _ D1 D2 (BB _ _ N1 N2)) as C2.
    set (zz := p / hyp p q * b * m1 - q / hyp p q * a * m2) in *.
    pose proof (add_r0 _ _ _ (mul_r0 _ _ _ C0 V0) (mul_r0 _ _ _ C1 V1)) as Z. pose proof (mul_r1 _ _ _ C2 V2) as K.
    exists (rnd zz). split.
    - refine (add64' _ _ 0 (rnd zz) (rnd zz) Z K _ (is64_fmt _ _ C2) (is64_big _ _ C2)). ring.
    - intros Hs. pose proof (hyp_pos p q Nz) as Hn.
      assert (Er : Rabs (hyp p q * zz - (p * b - q * a)) <= (w53 ^ 4 - 1) * (Rabs (p * b) + Rabs (q * a))).
      { replace (hyp p q * zz) with (p * b * m1 + (- (q * a)) * m2) by (unfold zz; field; lra). replace (p * b - q * a) with (p * b + - (q * a)) by ring.
        rewrite <- (Rabs_Ropp (q * a)). apply sum_err; auto. }
      assert (Sg : 0 < zz * (p * b - q * a)).
      { apply Rmult_lt_reg_l with (hyp p q); auto. rewrite Rmult_0_r, <- Rmult_assoc. apply Rle_lt_trans with (2 := Hs) in Er.
        destruct (Rle_dec 0 (p * b - q * a)) as [O|O].
        - rewrite (Rabs_pos_eq (p * b - q * a)) in Er by auto. apply Rabs_lt_inv in Er. apply Rmult_lt_0_compat; [lra|]. destruct O as [O|O]; auto. rewrite <- O in Er. lra.
        - apply Rnot_le_lt in O. rewrite (Rabs_left (p * b - q * a)) in Er by auto. apply Rabs_lt_inv in Er.
          replace (hyp p q * zz * (p * b - q * a)) with ((- (hyp p q * zz)) * (- (p * b - q * a))) by ring. apply Rmult_lt_0_compat; lra. }
      destruct (rnd_plus _ _ (is64_fmt _ _ D1) (is64_fmt _ _ (opp64 _ _ D2))) as (d & Hd & Ed). change (p / hyp p q * b * m1 + - (q / hyp p q * a * m2)) with zz in Ed.
      rewrite Ed. replace (zz * (1 + d) * (p * b - q * a)) with (zz * (p * b - q * a) * (1 + d)) by ring. apply Rmult_lt_0_compat; auto.
      apply Rabs_le_inv in Hd. unfold u53 in Hd. lra.
  Qed.
  (** everything about yaw_wind: the argument d of arccos and the sign sg *)
  Lemma yaw_parts R hub e_shaft e_vert U0 Ct Lambda name gr model p q a b c : good_acos -> horizontal e_shaft e_vert U0 p q a b c ->
    exists d sg, Rabs (d - cosw p q a b) <= 9 * u53 /\ (sg = 1 \/ sg = -1) /\
      ((w53 ^ 4 - 1) * (Rabs (p * b) + Rabs (q * a)) < Rabs (p * b - q * a) -> 0 < sg * (p * b - q * a)) /\
      let w := yaw_wind (new_turbine (N := FL) R hub e_shaft e_vert U0 Ct Lambda name gr model) in
      ((-1 <= d <= 1) -> exists y, is64 w y /\ Rabs (y - sg * acos d) <= / 10 ^ 9) /\ (~ (-1 <= d <= 1) -> w = fnan).
  Proof.
    intros GA HH. destruct (horz_built _ _ _ _ _ _ _ _ HH) as (h0 & h1 & h2 & s & t & Eh & Fs & Ft & H0 & H1 & H2 & GP & GQ).
    destruct (wind_unit _ _ _ _ _ _ _ _ HH) as (e0 & e1 & e2 & s' & t' & Ew & Fs' & Ft' & E0 & E1 & E2 & GX & GY).
    destruct (cross_sign _ _ _ _ _ _ _ _ _ _ _ _ _ HH Fs Ft H0 H1 H2 GP GQ) as (r & R1 & R2).
    assert (NN : (p <> 0 \/ q <> 0) /\ (a <> 0 \/ b <> 0)).
    { destruct e_shaft as [[s0 s1] s2], e_vert as [[v0 v1] v2], U0 as [[w0 w1] w2]. destruct HH as (_ & _ & _ & _ & _ & _ & _ & _ & _ & _ & _ & Nz & _ & _ & Nw & _). split; auto. }
    destruct (dot_h L _ _ _ _ _ _ _ _ _ _ _ _ _ _ E0 E1 E2 H0 H1 H2 Fs' Ft' Fs Ft GX GY GP GQ (unit_sq a b (proj2 NN)) (unit_sq p q (proj1 NN))) as (d & D1 & D2).
    pose proof (sign64 _ _ R1) as SG.
    assert (Y : yaw_wind (new_turbine (N := FL) R hub e_shaft e_vert U0 Ct Lambda name gr model) =
      (let sign := fsign (dot (N := FL) (cross (N := FL) (h0, h1, h2) U0) e_vert) in let ac := l_acos L (dot (N := FL) (e0, e1, e2) (h0, h1, h2)) in
       if Beqb sign (fme 0 0) then ac else bfmul sign ac)).
    { unfold yaw_wind. cbv zeta in *.
      change (t_horz (new_turbine (N := FL) R hub e_shaft e_vert U0 Ct Lambda name gr model)) with (horz_of (N := FL) e_shaft e_vert).
      change (t_U0 (new_turbine (N := FL) R hub e_shaft e_vert U0 Ct Lambda name gr model)) with U0.
      change (t_vert (new_turbine (N := FL) R hub e_shaft e_vert U0 Ct Lambda name gr model)) with e_vert.
      rewrite Ew, Eh. reflexivity. }
    cbv zeta in Y. set (sgn := fsign _) in *. set (dd := dot (N := FL) (e0, e1, e2) (h0, h1, h2)) in *.
    exists d, (if Rlt_bool r 0 then -1 else 1). split; [exact D2|]. split; [destruct (Rlt_bool r 0); auto|]. split; [|].
    - intros K. specialize (R2 K). destruct (Rlt_bool_spec r 0) as [N|N].
      + assert (p * b - q * a < 0). { destruct (Rle_dec 0 (p * b - q * a)); [|lra]. exfalso. assert (0 <= (- r) * (p * b - q * a)) by (apply Rmult_le_pos; lra). lra. } lra.
      + assert (0 < p * b - q * a). { destruct (Rle_dec (p * b - q * a) 0) as [O|]; [|lra]. exfalso. assert (0 <= r * (- (p * b - q * a))) by (apply Rmult_le_pos; lra). lra. } lra.
    - cbv zeta. rewrite Y. destruct (GA dd d D1) as [A1 A2].
      pose proof (Z64 0 ltac:(reflexivity)) as Z0. rewrite (eq64 _ _ _ _ SG Z0). split.
      + intros Hd. destruct (A1 Hd) as (y & Y1 & Y2). destruct (Rlt_bool_spec 0 r) as [Q|Q].
        * rewrite Req_bool_false by lra. rewrite Rlt_bool_false by lra. exists y. split; [|rewrite Rmult_1_l; exact Y2].
          refine (mul64' _ _ 1 y y SG Y1 _ (is64_fmt _ _ Y1) (is64_big _ _ Y1)). ring.
        * destruct (Rlt_bool_spec r 0) as [Q'|Q'].
          -- rewrite Req_bool_false by lra. exists (- y). split.
             ++ refine (mul64' _ _ (-1) y (- y) SG Y1 _ (fmt_opp _ (is64_fmt _ _ Y1)) _); [ring|]. rewrite Rabs_Ropp. exact (is64_big _ _ Y1).
             ++ replace (- y - -1 * acos d) with (- (y - acos d)) by ring. rewrite Rabs_Ropp. exact Y2.
          -- rewrite Req_bool_true by reflexivity. exists y. split; [exact Y1|rewrite Rmult_1_l; exact Y2].
      + intros Hd. rewrite (A2 Hd). destruct (Req_bool _ _); [reflexivity|]. destruct sgn; reflexivity.
  Qed.
  (** C134.  The wind angle returned by yaw_wind, in binary64: it is NaN, which happens only when the wind is within rounding of the direction of the shaft or of its
      opposite; otherwise its size is within 7e-8 rad of the exact angle, and its sign is right unless the wind is within rounding of these two directions. *)
  Theorem C134_wind_angle_partial : forall R hub e_shaft e_vert U0 Ct Lambda name gr model p q a b c, good_acos -> horizontal e_shaft e_vert U0 p q a b c ->
    let w := yaw_wind (new_turbine (N := FL) R hub e_shaft e_vert U0 Ct Lambda name gr model) in
    (w = fnan /\ 1 - 9 * u53 < Rabs (cosw p q a b)) \/
    exists y sg, is64 w y /\ (sg = 1 \/ sg = -1) /\ Rabs (y - sg * acos (cosw p q a b)) <= 7 / 10 ^ 8 /\
      (5 * u53 * (Rabs (p * b) + Rabs (q * a)) < Rabs (p * b - q * a) -> 0 < sg * (p * b - q * a)).
  Proof.
    intros R hub e_shaft e_vert U0 Ct Lambda name gr model p q a b c GA HH w.
    destruct (yaw_parts R hub e_shaft e_vert U0 Ct Lambda name gr model p q a b c GA HH) as (d & sg & D & S & S2 & W). cbv zeta in W. fold w in W. destruct W as [W1 W2].
    assert (NN : (p <> 0 \/ q <> 0) /\ (a <> 0 \/ b <> 0)).
    { destruct e_shaft as [[s0 s1] s2], e_vert as [[v0 v1] v2], U0 as [[w0 w1] w2']. destruct HH as (_ & _ & _ & _ & _ & _ & _ & _ & _ & _ & _ & Nz & _ & _ & Nw & _). split; auto. }
    pose proof (cosw_le p q a b (proj1 NN) (proj2 NN)) as CW.
    destruct (Rle_dec (-1) d) as [A|A]; [destruct (Rle_dec d 1) as [B|B]|].
    - right. destruct (W1 (conj A B)) as (y & Y1 & Y2). exists y, sg. split; [exact Y1|]. split; [exact S|]. split.
      + pose proof (acos_holder d (cosw p q a b) (conj A B) CW ltac:(pose proof u53_pos; lra)) as H.
        replace (y - sg * acos (cosw p q a b)) with ((y - sg * acos d) + sg * (acos d - acos (cosw p q a b))) by ring. eapply Rle_trans; [apply Rabs_triang|]. rewrite Rabs_mult.
        assert (Rabs sg = 1) by (destruct S as [-> | ->]; [apply Rabs_R1|rewrite Rabs_left; lra]). rewrite H0, Rmult_1_l. lra.
      + intros K. apply S2. eapply Rle_lt_trans; [|exact K]. apply Rmult_le_compat_r; [pose proof (Rabs_pos (p * b)); pose proof (Rabs_pos (q * a)); lra|].
        assert (W : w53 <= 1 + u53 * (1 + / 100)).
        { unfold w53. apply Rmult_le_reg_r with (1 - u53); [unfold u53; lra|]. rewrite Rinv_l by (unfold u53; lra). unfold u53; lra. }
        pose proof w53_gt. apply Rle_trans with ((1 + u53 * (1 + / 100)) ^ 4 - 1); [apply Rplus_le_compat_r; apply pow_incr; lra|]. unfold u53; lra.
    - left. split; [apply W2; tauto|]. apply Rabs_le_inv in D. eapply Rlt_le_trans; [|apply Rle_abs]. lra.
    - left. split; [apply W2; tauto|]. apply Rabs_le_inv in D. rewrite <- Rabs_Ropp. eapply Rlt_le_trans; [|apply Rle_abs]. lra.
  Qed.
End Yaw.

(** ** Below the threshold, only the fact that chi is below the threshold matters *)
Lemma unskewed_same (N : Num) (t : turbine N) (o : opts N) pts c : skewed (chi_now t) = false -> skewed c = false ->
  snd (compute_u t o pts) = snd (compute_u (set_chi t c) o pts).
Proof.
  intros H K. rewrite !compute_u_terms. change (t_gt (set_chi t c)) with (t_gt t). destruct (t_gt t) as [gs|]; [|reflexivity].
  assert (E : terms t o gs pts = terms (set_chi t c) o gs pts).
  { unfold terms. cbv zeta. change (T_c2g (set_chi t c)) with (T_c2g t). change (t_ground (set_chi t c)) with (t_ground t). change (t_model (set_chi t c)) with (t_model t).
    change (t_rhub (set_chi t c)) with (t_rhub t). change (chi_now (set_chi t c)) with c.
    set (Yl := ylist _ _ _). set (mo := match o_Model o with Some m => m | None => t_model t end).
    assert (A : root_terms t o (chi_now t) Yl = root_terms (set_chi t c) o c Yl).
    { unfold root_terms. change (t_Gr (set_chi t c)) with (t_Gr t). rewrite H, K. reflexivity. }
    assert (B : forall g, single_terms t o mo (chi_now t) g Yl = single_terms (set_chi t c) o mo c g Yl).
    { intros g. unfold single_terms, single1_terms, cu_tang1, cu_longi1, gl_active1. change (t_gl (set_chi t c)) with (t_gl t). change (t_R (set_chi t c)) with (t_R t).
      change (t_r (set_chi t c)) with (t_r t). rewrite H, K. reflexivity. }
    assert (C : forall gr cy pc, multi_terms t o mo (chi_now t) gs gr cy pc = multi_terms (set_chi t c) o mo c gs gr cy pc).
    { intros. unfold multi_terms. change (t_gl (set_chi t c)) with (t_gl t). change (t_r (set_chi t c)) with (t_r t). rewrite H, K. reflexivity. }
    rewrite A. destruct (root_terms (set_chi t c) o c Yl); cbn [bind]; [|reflexivity]. destruct gs as [|g [|g' gs]]; rewrite ?B, ?C; reflexivity. }
  rewrite E. reflexivity.
Qed.
Section Skew.
  Context (L : mlib).
  Notation FL := (FN L).
  Lemma nan_unskewed : skewed (N := FL) fnan = false. Proof. reflexivity. Qed.
  Lemma lit7 : is64 (nQ FL 1 10000000) (rnd (1 / 10000000)).
  Proof.
    apply (div64 _ _ 1 10000000); [apply (Z64 1); reflexivity|apply (Z64 10000000); reflexivity|lra|]. apply small_big. rewrite Rabs_pos_eq; lra.
  Qed.
  Lemma rnd7 : 99 / 10 ^ 9 <= rnd (1 / 10000000).
  Proof.
    destruct (rnd_rel (1 / 10000000)) as (d & D & ->).
    - right. rewrite Rabs_pos_eq by lra. apply Rle_trans with (bpow radix2 (-24)); [apply bpow_le; lia|]. change (bpow radix2 (-24)) with (/ 16777216). lra.
    - apply Rabs_le_inv in D. unfold u53 in D. lra.
  Qed.
  Lemma small_unskewed (c : F) y : is64 c y -> Rabs y <= 99 / 10 ^ 9 -> skewed (N := FL) c = false.
  Proof.
    intros H K. unfold skewed. change (nlt FL (nQ FL 1 10000000) (nabs FL c)) with (Bltb (nQ FL 1 10000000) (Babs c)).
    rewrite (lt64 _ _ _ _ lit7 (abs64 _ _ H)). apply Rlt_bool_false. pose proof rnd7. lra.
  Qed.
  Lemma mul_nan_r (a : F) : bfmul a fnan = fnan. Proof. destruct a; reflexivity. Qed.
  (** the sign in front of chi is 0, 1, -1 or NaN *)
  Lemma sign_any (v : F) : fsign v = fnan \/ exists sg, is64 (fsign v) sg /\ (sg = 0 \/ sg = 1 \/ sg = -1).
  Proof.
    pose proof (Z64 1 ltac:(reflexivity)) as O. change (fme 1 0) with fone in O.
    destruct v as [s|s| |s m e H]; [right; exists 0; split; [split; reflexivity|auto]| |left; reflexivity|]; right; (destruct s; [exists (-1); split; [exact (opp64 _ _ O)|auto]|exists 1; split; [exact O|auto]]).
  Qed.
  Lemma sign_mul_small (v w : F) y : is64 w y -> Rabs y <= 99 / 10 ^ 9 -> skewed (N := FL) (bfmul (fsign v) w) = false.
  Proof.
    intros H K. destruct (sign_any v) as [-> |(sg & S & C)]; [reflexivity|].
    assert (E : is64 (bfmul (fsign v) w) (sg * y)).
    { assert (A : fmt (sg * y) /\ Rabs (sg * y) < bpow radix2 1024).
      { destruct C as [-> |[-> | ->]].
        - rewrite Rmult_0_l. split; [apply fmt_0|apply z1024].
        - rewrite Rmult_1_l. split; [eapply is64_fmt; eauto|eapply is64_big; eauto].
        - replace (-1 * y) with (- y) by ring. rewrite Rabs_Ropp. split; [apply fmt_opp; eapply is64_fmt; eauto|eapply is64_big; eauto]. }
      apply (mul64' _ _ sg y (sg * y)); auto; tauto. }
    apply (small_unskewed _ _ E). rewrite Rabs_mult. assert (Rabs sg <= 1) by (destruct C as [-> |[-> | ->]]; unfold Rabs; destruct (Rcase_abs _); lra).
    pose proof (Rabs_pos y). pose proof (Rabs_pos sg). apply Rle_trans with (1 * Rabs y); [apply Rmult_le_compat_r; auto|lra].
  Qed.
  (** C134.  Wind along the shaft, up to the rounding of its components: the turbine is treated as aligned (the angle chi is below the threshold 1e-7 of the code,
      or NaN, which the code also treats as aligned), and the velocity is the one computed with chi = 0. *)
  Theorem C134_aligned_partial : forall R hub e_shaft e_vert U0 Ct Lambda name gr model p q a b c s, good_acos L -> horizontal e_shaft e_vert U0 p q a b c ->
    0 < s -> Rabs (a - s * p) <= u53 * Rabs (s * p) -> Rabs (b - s * q) <= u53 * Rabs (s * q) ->
    let t := new_turbine (N := FL) R hub e_shaft e_vert U0 Ct Lambda name gr model in
    skewed (chi_now t) = false /\ (forall g gl r o pts, let t' := set_r (set_gl (set_gt t g) gl) r in snd (compute_u t' o pts) = snd (compute_u (set_chi t' (nZ FL 0)) o pts)).
  Proof.
    intros R hub e_shaft e_vert U0 Ct Lambda name gr model p q a b c s GA HH Hs Ha Hb t.
    assert (SK : skewed (chi_now t) = false).
    { destruct (yaw_parts L R hub e_shaft e_vert U0 Ct Lambda name gr model p q a b c GA HH) as (d & sg & D & S & S2 & W). cbv zeta in W. fold t in W. destruct W as [W1 W2].
      assert (NN : (p <> 0 \/ q <> 0) /\ (a <> 0 \/ b <> 0)).
      { destruct e_shaft as [[s0 s1] s2], e_vert as [[v0 v1] v2], U0 as [[w0 w1] w2']. destruct HH as (_ & _ & _ & _ & _ & _ & _ & _ & _ & _ & _ & Nz & _ & _ & Nw & _). split; auto. }
      pose proof (cosw_le p q a b (proj1 NN) (proj2 NN)) as CW.
      assert (FX : forall x y, Rabs (y - s * x) <= u53 * Rabs (s * x) -> exists f, fac 1 f /\ y = s * x * f).
      { intros x y H. destruct (Req_dec (s * x) 0) as [Z|Z].
        - exists 1. split; [apply fac_1|]. rewrite Z, Rabs_R0, Rmult_0_r in H. rewrite Z in *. pose proof (Rabs_pos (y - 0)). assert (E0 : Rabs (y - 0) = 0) by lra. destruct (Req_dec (y - 0) 0) as [Q|Q]; [lra|]. apply Rabs_pos_lt in Q. lra.
        - exists (1 + (y - s * x) / (s * x)). split; [|field; assert (x <> 0) by (intros ->; apply Z; ring); split; auto; lra].
          apply fac_d. unfold Rdiv. rewrite Rabs_mult, Rabs_inv. pose proof (Rabs_pos_lt _ Z). apply Rmult_le_reg_r with (Rabs (s * x)); auto. rewrite Rmult_assoc, Rinv_l by lra. lra. }
      destruct (FX p a Ha) as (f1 & F1 & Ea). destruct (FX q b Hb) as (f2 & F2 & Eb).
      pose proof (hyp_pos p q (proj1 NN)) as Hn. pose proof (hyp_sq p q) as Hq.
      destruct (fac_plus 2 (p * p) (q * q) (f1 * f1) (f2 * f2)) as (f3 & F3 & E3); [apply Rmult_le_pos; apply Rle_0_sqr|apply (fac_mul 1 1); auto|apply (fac_mul 1 1); auto|].
      destruct (fac_plus 1 (p * p) (q * q) f1 f2) as (f4 & F4 & E4); [apply Rmult_le_pos; apply Rle_0_sqr|auto|auto|].
      pose proof (fac_pos _ _ F3) as P3.
      assert (Hh : hyp a b = s * hyp p q * sqrt f3).
      { unfold hyp at 1. replace (a * a + b * b) with (s * s * (p * p * (f1 * f1) + q * q * (f2 * f2))) by (rewrite Ea, Eb; ring). rewrite E3, <- Hq.
        replace (s * s * (hyp p q * hyp p q * f3)) with ((s * hyp p q) * (s * hyp p q) * f3) by ring. rewrite sqrt_mult_alt by (apply Rle_0_sqr). rewrite sqrt_square; [reflexivity|]. apply Rmult_le_pos; lra. }
      assert (F5 : fac 1 (sqrt f3)) by (apply fac_sqrt; auto). pose proof (fac_pos _ _ F5) as P5.
      assert (Ec : cosw p q a b = f4 / sqrt f3).
      { unfold cosw. rewrite Hh, Ea, Eb.
        replace (s * p * f1 / (s * hyp p q * sqrt f3) * (p / hyp p q) + s * q * f2 / (s * hyp p q * sqrt f3) * (q / hyp p q)) with ((p * p * f1 + q * q * f2) / (hyp p q * hyp p q) / sqrt f3) by (field; repeat split; lra).
        rewrite E4, Hq. field. split; [lra|]. rewrite <- Hq. apply Rgt_not_eq. apply Rmult_lt_0_compat; auto. }
      pose proof (fac_div 1 1 _ _ F4 F5) as F6. rewrite <- Ec in F6. pose proof (fac_err _ _ F6) as Er. apply Rabs_le_inv in Er.
      assert (W : w53 ^ 2 - 1 <= 3 * u53).
      { assert (W : w53 <= 1 + u53 * (1 + / 100)) by (unfold w53; apply Rmult_le_reg_r with (1 - u53); [unfold u53; lra|]; rewrite Rinv_l by (unfold u53; lra); unfold u53; lra).
        pose proof w53_gt. apply Rle_trans with ((1 + u53 * (1 + / 100)) ^ 2 - 1); [apply Rplus_le_compat_r; apply pow_incr; lra|]. unfold u53; lra. }
      cbn [Nat.add] in Er. apply Rabs_le_inv in D.
      assert (YN : is64 (t_yaw t) 0) by (apply (Z64 0); reflexivity).
      change (chi_now t) with (bfmul (fsign (snd (fst (mvec (mtr (T_c2g t)) (t_vert t))))) (bfsub (yaw_wind t) (t_yaw t))).
      destruct (Rle_dec d 1) as [B|B].
      - assert (A : -1 <= d) by (unfold u53 in *; lra). destruct (W1 (conj A B)) as (y & Y1 & Y2).
        apply (sign_mul_small _ _ y); [exact (sub_r0 _ _ _ Y1 YN)|].
        pose proof (acos_holder d 1 (conj A B) ltac:(lra) ltac:(apply Rabs_le; unfold u53 in *; lra)) as H. rewrite acos_1, Rminus_0_r in H.
        replace y with ((y - sg * acos d) + sg * acos d) by ring. eapply Rle_trans; [apply Rabs_triang|]. rewrite (Rabs_mult sg).
        assert (E1 : Rabs sg = 1) by (destruct S as [-> | ->]; [apply Rabs_R1|rewrite Rabs_left; lra]). rewrite E1, Rmult_1_l. lra.
      - rewrite (W2 ltac:(lra)). replace (bfsub fnan (t_yaw t)) with fnan by reflexivity. rewrite mul_nan_r. apply nan_unskewed. }
    split; [exact SK|]. intros g gl r o pts t'. apply unskewed_same; [exact SK|]. apply (small_unskewed _ 0); [apply (Z64 0); reflexivity|]. rewrite Rabs_R0. lra.
  Qed.
End Skew.

(** ** A library whose arccos is correctly rounded *)
Definition fl_of (x : R) : F := let y := rnd x in fme (Ztrunc (scaled_mantissa radix2 fexp64 y)) (cexp radix2 fexp64 y).
Lemma fl_of_is x : Rabs x <= big -> is64 (fl_of x) (rnd x).
Proof.
  intros H. unfold fl_of. cbv zeta. set (y := rnd x). pose proof (fmt_rnd x) as G. fold y in G.
  pose proof (binary_normalize_correct 53 1024 pgt plt mode_NE (Ztrunc (scaled_mantissa radix2 fexp64 y)) (cexp radix2 fexp64 y) false) as C. cbv zeta in C.
  change (F2R {| Fnum := Ztrunc (scaled_mantissa radix2 fexp64 y); Fexp := cexp radix2 fexp64 y |}) with (F2R (Float radix2 (Ztrunc (scaled_mantissa radix2 fexp64 y)) (cexp radix2 fexp64 y))) in C.
  assert (E : F2R (Float radix2 (Ztrunc (scaled_mantissa radix2 fexp64 y)) (cexp radix2 fexp64 y)) = y) by (symmetry; exact G). rewrite E in C.
  assert (I : round radix2 (SpecFloat.fexp 53 1024) (round_mode mode_NE) y = y) by (exact (rnd_id y G)). rewrite I in C.
  rewrite Rlt_bool_true in C by (apply rnd_big; auto). destruct C as (C & D & _). split; [exact D|exact C].
Qed.
Definition acos64 (a : F) : F := if is_finite a then (if Rle_bool (-1) (B2R a) && Rle_bool (B2R a) 1 then fl_of (acos (B2R a)) else fnan) else fnan.
Definition lib_acos (cs sn : F -> F) : mlib := {| l_pow := fun _ _ => fnan; l_exp := fun _ => fnan; l_log := fun _ => fnan; l_cosh := fun _ => fnan; l_cos := cs; l_sin := sn; l_tan := fun _ => fnan;
  l_atan := fun _ => fnan; l_acos := acos64; l_atan2 := fun _ _ => fnan; l_ellipk := fun _ => fnan; l_ellipe := fun _ => fnan |}.
Lemma lib_acos_good cs sn : good_acos (lib_acos cs sn).
Proof.
  intros a x [A <-]. cbn [l_acos lib_acos]. unfold acos64. rewrite A. split.
  - intros [H K]. rewrite !Rle_bool_true by auto. cbn [andb].
    pose proof (acos_bound (B2R a)) as AB. pose proof PI_4 as P4.
    assert (B : Rabs (acos (B2R a)) <= 4) by (rewrite Rabs_pos_eq; lra).
    exists (rnd (acos (B2R a))). split; [apply fl_of_is; apply small_big; auto|].
    destruct (rnd_ex (acos (B2R a))) as (d & e & D & E & ->). replace (acos (B2R a) * (1 + d) + e - acos (B2R a)) with (d * acos (B2R a) + e) by ring.
    eapply Rle_trans; [apply Rabs_triang|]. rewrite Rabs_mult.
    assert (Rabs d * Rabs (acos (B2R a)) <= u53 * 4) by (apply Rmult_le_compat; auto; apply Rabs_pos).
    assert (eta64 <= u53). { unfold eta64. apply Rle_trans with (bpow radix2 (-1074)); [pose proof (bpow_gt_0 radix2 (-1074)); lra|]. apply Rle_trans with (bpow radix2 (-53)); [apply bpow_le; lia|]. change (bpow radix2 (-53)) with (/ 9007199254740992). unfold u53. lra. }
    unfold u53 in *. lra.
  - intros H. destruct (Rle_bool_spec (-1) (B2R a)) as [P|P]; [destruct (Rle_bool_spec (B2R a) 1) as [Q|Q]|]; try reflexivity. exfalso. apply H. auto.
Qed.

(** ** A turbine whose skew is lost *)
Definition s13 : F * F * F := (bfdiv (fme 5 0) (fme 13 0), bfdiv (fme 12 0) (fme 13 0), fme 0 0).
Definition v001 : F * F * F := (fme 0 0, fme 0 0, fme 1 0).
(** wind of 8 m/s along the direction (5/13, 12/13, 0) *)
Definition w13 : F * F * F := let '(a, b, c) := s13 in (bfmul (fme 8 0) a, bfmul (fme 8 0) b, bfmul (fme 8 0) c).
Lemma s13_is : exists p q, is64 (fst (fst s13)) p /\ is64 (snd (fst s13)) q /\ rg 100 p /\ rg 100 q /\ p <> 0 /\ horizontal s13 v001 w13 p q (8 * p) (8 * q) 0.
Proof.
  assert (A : forall n, (0 < n < 13)%Z -> exists t, fac 1 t /\ is64 (bfdiv (fme n 0) (fme 13 0)) (IZR n / 13 * t) /\ rg 100 (IZR n / 13 * t)).
  { intros n H. assert (IZR 1 <= IZR n) by (apply IZR_le; lia). assert (IZR n <= IZR 12) by (apply IZR_le; lia).
    assert (G : rg 99 (IZR n / 13)).
    { right. rewrite Rabs_pos_eq by lra. split.
      - apply Rle_trans with (bpow radix2 (-4)); [apply bpow_le; lia|]. change (bpow radix2 (-4)) with (/ 16). lra.
      - apply Rle_trans with (bpow radix2 0); [change (bpow radix2 0) with 1; lra|apply bpow_le; lia]. }
    destruct (div_rel 99 (fme n 0) (fme 13 0) (IZR n) 13 ltac:(lia)) as (t & T & D); [apply Z64; lia|apply (Z64 13); reflexivity|lra|exact G|].
    exists t. split; [exact T|]. split; [exact D|]. apply (rg_fac 1 99); [lia|exact G|exact T]. }
  destruct (A 5%Z ltac:(lia)) as (t1 & T1 & D1 & G1). destruct (A 12%Z ltac:(lia)) as (t2 & T2 & D2 & G2).
  set (p := 5 / 13 * t1) in *. set (q := 12 / 13 * t2) in *. pose proof (fac_20 1 t1 ltac:(lia) T1) as B1. pose proof (fac_20 1 t2 ltac:(lia) T2) as B2.
  assert (P : p <> 0) by (unfold p; lra).
  assert (E : forall a x, is64 a x -> / 16 <= x <= 2 -> is64 (bfmul (fme 8 0) a) (8 * x) /\ rg 100 (8 * x)).
  { intros a x H K.
    assert (G : rg 100 (8 * x)).
    { right. rewrite Rabs_pos_eq by lra. split.
      - apply Rle_trans with (bpow radix2 (-1)); [apply bpow_le; lia|]. change (bpow radix2 (-1)) with (/ 2). lra.
      - apply Rle_trans with (bpow radix2 4); [change (bpow radix2 4) with 16; lra|apply bpow_le; lia]. }
    split; [|exact G]. apply (mul64' _ _ 8 x); [apply (Z64 8); reflexivity|exact H|reflexivity| |].
    - change 8 with (bpow radix2 3). rewrite Rmult_comm. 
      pose proof (is64_fmt _ _ H) as M. unfold fmt, fexp64 in *. apply FLT_format_generic in M; [|reflexivity]. destruct M as [f M1 M2 M3].
      rewrite M1. apply generic_format_FLT. exists (Float radix2 (Fnum f) (Fexp f + 3)); [unfold F2R; cbn [Fnum Fexp]; rewrite bpow_plus; ring|exact M2|cbn [Fexp]; lia].
    - destruct G as [-> |[_ G]]; [apply z1024|]. eapply Rle_lt_trans; [exact G|]. apply bpow_lt; lia. }
  exists p, q. unfold p, q in *. destruct (E _ _ D1) as [E1 E2]; [lra|]. destruct (E _ _ D2) as [E3 E4]; [lra|].
  split; [exact D1|]. split; [exact D2|]. split; [exact G1|]. split; [exact G2|]. split; [exact P|].
  cbn [s13 v001 w13 horizontal]. pose proof (Z64 0 ltac:(reflexivity)) as Z0. pose proof (Z64 1 ltac:(reflexivity)) as O1. pose proof (Z64 8 ltac:(reflexivity)) as O8.
  split; [exact D1|]. split; [exact D2|]. split; [exact Z0|]. split; [exact Z0|]. split; [exact Z0|]. split; [exact O1|]. split; [exact E1|]. split; [exact E3|].
  split; [exact (mul_r0 _ _ _ O8 Z0)|]. split; [exact G1|]. split; [exact G2|]. split; [auto|]. split; [exact E2|]. split; [exact E4|]. split; [left; unfold p in P; lra|left; reflexivity].
Qed.
(** For every library with a good arccos and every yaw angle: yaw_wind is NaN (the dot product of the two computed unit vectors is 1 + 2^-52), the skew angle is NaN,
    and the turbine is treated as aligned, however large the yaw angle is *)
Theorem C134_skew_lost : forall (L : mlib) R hub Ct Lambda name gr model (yaw : F), good_acos L ->
  let t := update_yaw_pos (new_turbine (N := FN L) R hub s13 v001 w13 Ct Lambda name gr model) yaw in
  yaw_wind t = fnan /\ skewed (chi_now t) = false.
Proof.
  intros L R hub Ct Lambda name gr model yaw GA t.
  assert (Y : yaw_wind t = fnan).
  { assert (E : yaw_wind t = (let sign := fsign (dot (N := FN L) (cross (N := FN L) (horz_of (N := FN L) s13 v001) w13) v001) in
       let u := vsub (N := FN L) w13 (vscale (N := FN L) (dot (N := FN L) w13 v001) v001) in
       let ac := l_acos L (dot (N := FN L) (vdivs (N := FN L) u (norm (N := FN L) u)) (horz_of (N := FN L) s13 v001)) in if Beqb sign (fme 0 0) then ac else bfmul sign ac)) by reflexivity.
    rewrite E. cbv zeta. set (d := dot (N := FN L) (vdivs (N := FN L) _ _) _).
    assert (D : B2SF d = SpecFloat.S754_finite false 4503599627370497 (-52)) by (subst d; vm_compute; reflexivity).
    assert (DD : is64 d (4503599627370497 * bpow radix2 (-52))).
    { exact (sf_is _ _ _ _ D). }
    change (bpow radix2 (-52)) with (/ 4503599627370496) in DD.
    rewrite (proj2 (GA d _ DD)) by lra. destruct (Beqb _ _); [reflexivity|]. apply mul_nan_r. }
  split; [exact Y|].
  change (chi_now t) with (bfmul (fsign (snd (fst (mvec (mtr (T_c2g t)) (t_vert t))))) (bfsub (yaw_wind t) (t_yaw t))).
  rewrite Y. replace (bfsub fnan (t_yaw t)) with fnan by reflexivity. rewrite mul_nan_r. apply nan_unskewed.
Qed.
(** the property one would want: a turbine yawed out of the wind by a tenth of a radian or more is treated as skewed *)
Definition C134_full (L : mlib) : Prop := forall R hub e_shaft e_vert U0 Ct Lambda name gr model p q a b c (yaw : F) y,
  horizontal e_shaft e_vert U0 p q a b c -> cosw p q a b = 1 -> is64 yaw y -> / 10 <= Rabs y <= 1 ->
  skewed (chi_now (update_yaw_pos (new_turbine (N := FN L) R hub e_shaft e_vert U0 Ct Lambda name gr model) yaw)) = true.
Theorem C134_refuted : forall L : mlib, good_acos L -> ~ C134_full L.
Proof.
  intros L GA H. destruct s13_is as (p & q & _ & _ & _ & _ & P & HH).
  assert (C : cosw p q (8 * p) (8 * q) = 1).
  { unfold cosw. assert (Hh : hyp (8 * p) (8 * q) = 8 * hyp p q).
    { unfold hyp at 1. replace (8 * p * (8 * p) + 8 * q * (8 * q)) with (8 * 8 * (p * p + q * q)) by ring. rewrite sqrt_mult_alt by lra. rewrite sqrt_square by lra. reflexivity. }
    rewrite Hh. pose proof (hyp_pos p q (or_introl P)). rewrite <- (unit_sq p q (or_introl P)). field. lra. }
  specialize (H (fme 50 0) (fme 0 0, fme 0 0, fme 0 0) s13 v001 w13 None None ""%string false "VC"%string p q (8 * p) (8 * q) 0 (fme 1 (-1)) (/ 2) HH C).
  rewrite (proj2 (C134_skew_lost L (fme 50 0) (fme 0 0, fme 0 0, fme 0 0) None None ""%string false "VC"%string (fme 1 (-1)) GA)) in H. discriminate H.
  - replace (/ 2) with (IZR 1 * bpow radix2 (-1)) by (change (bpow radix2 (-1)) with (/ 2); lra). apply me64; [reflexivity|lia].
  - rewrite Rabs_pos_eq; lra.
Qed.
(** the hypotheses of C134_wind_angle_partial and C134_aligned_partial are met by this turbine and any library with a correctly rounded arccos *)
Example C134_nonvacuous : forall cs sn : F -> F, good_acos (lib_acos cs sn) /\ exists p q, horizontal s13 v001 w13 p q (8 * p) (8 * q) 0 /\
  Rabs (8 * p - 8 * p) <= u53 * Rabs (8 * p) /\ Rabs (8 * q - 8 * q) <= u53 * Rabs (8 * q).
Proof.
  intros cs sn. split; [apply lib_acos_good|]. destruct s13_is as (p & q & _ & _ & _ & _ & P & HH). exists p, q. split; [exact HH|].
  rewrite !Rminus_eq_0, !Rabs_R0. split; apply Rmult_le_pos; try apply Rabs_pos; pose proof u53_pos; lra.
Qed.
