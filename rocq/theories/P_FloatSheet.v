(** * The sheet of the vortex cylinder in binary64 arithmetic: C136 *)
From Coquelicot Require Import Coquelicot.
From Coq Require Import Reals ZArith Lra Lia List Bool Machin.
From Flocq Require Import Core BinarySingleNaN.
From Verif Require Import Num NumR NumF M_Elliptic M_Cylinder L_List L_Calc Spec SpecBS L_Ell L_Cyl P_Skewed P_Cylinder P_Converge P_Jump P_FloatYaw P_FloatAxis.
Import ListNotations.
Local Open Scope R_scope.
Local Notation len := List.length.

(** ** pi *)
Lemma PI_num : 3.14159 < PI < 3.1416.
Proof.
  pose proof (PI_2_3_7_ineq 3) as [A B]. unfold tg_alt, PI_2_3_7_tg, Ratan_seq in A, B. cbn -[pow Rdiv] in A, B. split; lra.
Qed.
(** ** The complete integral of the first kind moves little with its argument *)
Lemma Kell_near m m' : m <= m' -> m' < 1 -> Kell m <= Kell m' <= Kell m / sqrt ((1 - m') / (1 - m)).
Proof.
  intros H H'. pose proof PI_RGT_0 as PP. assert (I := Kell_int m ltac:(lra)). assert (I' := Kell_int m' H').
  assert (D : forall x t, x < 1 -> 0 < 1 - x * (sin t * sin t)) by (intros; apply dm_pos; auto).
  assert (SS : forall t, 0 <= sin t * sin t <= 1) by (intros t; pose proof (SIN_bound t); nra).
  set (k := (1 - m') / (1 - m)). assert (K : 0 < k <= 1). { unfold k. split; [apply Rdiv_lt_0_compat; lra|]. apply Rmult_le_reg_r with (1 - m); [lra|]. unfold Rdiv. rewrite Rmult_assoc, Rinv_l; lra. }
  assert (Ek : k * (1 - m) = 1 - m') by (unfold k; field; lra).
  split.
  - apply (is_RInt_le _ _ 0 (PI / 2) _ _ ltac:(lra) I I'). intros t _. apply Rinv_le_contravar; [apply sqrt_lt_R0; auto|]. apply sqrt_le_1_alt. specialize (SS t). nra.
  - assert (Sk : 0 < sqrt k) by (apply sqrt_lt_R0; lra). assert (J := is_RInt_scal _ _ _ (/ sqrt k) _ I).
    replace (Kell m / sqrt k) with (scal (/ sqrt k) (Kell m)) by (unfold scal; cbn; unfold mult; cbn; field; lra).
    apply (is_RInt_le _ _ 0 (PI / 2) _ _ ltac:(lra) I' J). intros t _. unfold scal; cbn; unfold mult; cbn. rewrite <- Rinv_mult. rewrite <- sqrt_mult_alt by lra.
    apply Rinv_le_contravar; [apply sqrt_lt_R0; apply Rmult_lt_0_compat; [lra|apply D; lra]|]. apply sqrt_le_1_alt. specialize (SS t).
    assert ((1 - sin t * sin t) * (1 - k) >= 0) by nra. nra.
Qed.
Lemma Kell_bounds m : 0 <= m <= 9 / 10 -> 1 < Kell m < 6.
Proof.
  intros H. pose proof PI_num as P. destruct (Kell_near 0 m ltac:(lra) ltac:(lra)) as [A B]. rewrite Kell_0 in A, B. split; [lra|]. eapply Rle_lt_trans; [exact B|].
  replace ((1 - m) / (1 - 0)) with (1 - m) by field. assert (S : 31 / 100 <= sqrt (1 - m)). { rewrite <- (sqrt_square (31 / 100)) by lra. apply sqrt_le_1_alt. lra. }
  apply Rle_lt_trans with (PI / 2 * / (31 / 100)); [|lra]. apply Rmult_le_compat_l; [lra|]. apply Rinv_le_contravar; lra.
Qed.
(** ** Bounded floats *)
Definition ab (k : Z) (a : F) : Prop := exists x, is64 a x /\ Rabs x <= bpow radix2 k.
Lemma ab_le j k a : (j <= k)%Z -> ab j a -> ab k a.
Proof. intros H (x & A & B). exists x. split; [exact A|]. eapply Rle_trans; [exact B|]. apply bpow_le; lia. Qed.
Lemma rnd_ab k x : (-1074 <= k)%Z -> Rabs x <= bpow radix2 k -> Rabs (rnd x) <= bpow radix2 k.
Proof.
  intros K H. apply Rabs_le_inv in H. apply Rabs_le. pose proof (fmt_bpow k K) as G. split.
  - rewrite <- (rnd_id _ (fmt_opp _ G)). apply rnd_le; lra.
  - rewrite <- (rnd_id _ G). apply rnd_le; lra.
Qed.
Lemma ab_mul j k l a b : ab j a -> ab k b -> (j + k <= l)%Z -> (-1074 <= l <= 1023)%Z -> ab l (bfmul a b).
Proof.
  intros (x & A & Bx) (y & B & By) E K. assert (H : Rabs (x * y) <= bpow radix2 l). { rewrite Rabs_mult. eapply Rle_trans; [apply Rmult_le_compat; [apply Rabs_pos|apply Rabs_pos|exact Bx|exact By]|]. rewrite <- bpow_plus. apply bpow_le; auto. }
  exists (rnd (x * y)). split; [apply mul64; auto; eapply Rle_trans; [exact H|apply bpow_le; lia]|]. apply rnd_ab; auto; lia.
Qed.
Lemma ab_add j k l a b : ab j a -> ab k b -> (j < l)%Z -> (k < l)%Z -> (-1074 <= l <= 1023)%Z -> ab l (bfadd a b).
Proof.
  intros (x & A & Bx) (y & B & By) J K Hl. assert (H : Rabs (x + y) <= bpow radix2 l).
  { eapply Rle_trans; [apply Rabs_triang|]. replace l with (1 + (l - 1))%Z by lia. rewrite bpow_plus. change (bpow radix2 1) with 2. assert (bpow radix2 j <= bpow radix2 (l - 1)) by (apply bpow_le; lia). assert (bpow radix2 k <= bpow radix2 (l - 1)) by (apply bpow_le; lia). lra. }
  exists (rnd (x + y)). split; [apply add64; auto; eapply Rle_trans; [exact H|apply bpow_le; lia]|]. apply rnd_ab; auto; lia.
Qed.
Lemma ab_sub j k l a b : ab j a -> ab k b -> (j < l)%Z -> (k < l)%Z -> (-1074 <= l <= 1023)%Z -> ab l (bfsub a b).
Proof.
  intros (x & A & Bx) (y & B & By) J K Hl. assert (H : Rabs (x - y) <= bpow radix2 l).
  { unfold Rminus. eapply Rle_trans; [apply Rabs_triang|]. rewrite Rabs_Ropp. replace l with (1 + (l - 1))%Z by lia. rewrite bpow_plus. change (bpow radix2 1) with 2. assert (bpow radix2 j <= bpow radix2 (l - 1)) by (apply bpow_le; lia). assert (bpow radix2 k <= bpow radix2 (l - 1)) by (apply bpow_le; lia). lra. }
  exists (rnd (x - y)). split; [apply sub64; auto; eapply Rle_trans; [exact H|apply bpow_le; lia]|]. apply rnd_ab; auto; lia.
Qed.
(** division by a number of at least 2^-k *)
Lemma ab_div j k l a b y : ab j a -> is64 b y -> bpow radix2 (- k) <= y -> (j + k <= l)%Z -> (-1074 <= l <= 1023)%Z -> ab l (bfdiv a b).
Proof.
  intros (x & A & Bx) B Hy E K. pose proof (bpow_gt_0 radix2 (- k)) as B0.
  assert (Iy : Rabs (/ y) <= bpow radix2 k). { rewrite Rabs_pos_eq by (left; apply Rinv_0_lt_compat; lra). replace k with (- - k)%Z by lia. rewrite bpow_opp. apply Rinv_le_contravar; auto. }
  assert (H : Rabs (x / y) <= bpow radix2 l). { unfold Rdiv. rewrite Rabs_mult. eapply Rle_trans; [apply Rmult_le_compat; [apply Rabs_pos|apply Rabs_pos|exact Bx|exact Iy]|]. rewrite <- bpow_plus. apply bpow_le; auto. }
  exists (rnd (x / y)). split; [apply div64; auto; [lra|eapply Rle_trans; [exact H|apply bpow_le; lia]]|]. apply rnd_ab; auto; lia.
Qed.
Lemma ab_Z z k : (Z.abs z < 2 ^ 53)%Z -> Rabs (IZR z) <= bpow radix2 k -> ab k (fme z 0).
Proof. intros H K. exists (IZR z). split; [apply Z64; auto|exact K]. Qed.
Lemma ab_Q (L : mlib) p q k : (Z.abs p < 2 ^ 53)%Z -> (Zpos q < 2 ^ 53)%Z -> Rabs (IZR p) <= bpow radix2 k -> (-1074 <= k <= 1023)%Z -> ab k (nQ (FN L) p q).
Proof.
  intros P Q K Hk. apply (ab_div k 0 k _ _ (IZR (Zpos q))); [apply ab_Z; auto|apply Z64; lia| |lia|lia].
  change (bpow radix2 (- 0)) with 1. apply IZR_le. lia.
Qed.
Lemma is_ab k a x : is64 a x -> Rabs x <= bpow radix2 k -> ab k a. Proof. intros A B. exists x. auto. Qed.

(** ** The iteration for RF stays finite *)
Section RF.
  Context (L : mlib).
  Notation FL := (FN L).
  Definition half_power : F := nQ FL (-1) 2.
  (** the library's mu**(-1/2) *)
  Definition good_rsqrt : Prop := forall (a : F) x, is64 a x -> bpow radix2 (-60) <= x <= 1 -> exists y, is64 (l_pow L a half_power) y /\ Rabs (y - / sqrt x) <= / 10 ^ 6 * / sqrt x.
  Definition rfst (k : Z) (p : F * F * F) : Prop := let '(a, b, c) := p in exists x y z, is64 a x /\ is64 b y /\ is64 c z /\ 0 <= x <= 1 /\ 0 <= y <= 1 /\ bpow radix2 (- (2 * k)) <= z <= 1.
  Lemma fmt1 : fmt 1. Proof. apply (fmt_Z 1); reflexivity. Qed.
  Lemma rnd_01 x : 0 <= x <= 1 -> 0 <= rnd x <= 1.
  Proof. intros H. split; [rewrite <- rnd_0|rewrite <- (rnd_id 1 fmt1)]; apply rnd_le; lra. Qed.
  Lemma rnd_Zle x n : (Z.abs n < 2 ^ 53)%Z -> x <= IZR n -> rnd x <= IZR n.
  Proof. intros H K. rewrite <- (rnd_id (IZR n)) by (apply fmt_Z; auto). apply rnd_le; auto. Qed.
  Lemma rnd_ge0 x : 0 <= x -> 0 <= rnd x. Proof. intros H. rewrite <- rnd_0. apply rnd_le; auto. Qed.
  Lemma s01 a b x y : is64 a x -> is64 b y -> 0 <= x <= 1 -> 0 <= y <= 1 -> exists s, is64 (bfsqrt (bfmul a b)) s /\ 0 <= s <= 1.
  Proof.
    intros A B X Y. assert (P : 0 <= x * y <= 1) by nra. assert (M := mul64 _ _ _ _ A B (small_big (x * y) ltac:(rewrite Rabs_pos_eq; lra))). pose proof (rnd_01 _ P) as P'.
    exists (rnd (sqrt (rnd (x * y)))). split; [apply sqrt64; auto; lra|]. apply rnd_01. split; [apply sqrt_pos|]. rewrite <- sqrt_1. apply sqrt_le_1_alt. lra.
  Qed.
  Lemma lam01 a b c x y z : is64 a x -> is64 b y -> is64 c z -> 0 <= x <= 1 -> 0 <= y <= 1 -> 0 <= z <= 1 -> exists l, is64 (lam3 (N := FL) a b c) l /\ 0 <= l <= 3.
  Proof.
    intros A B C X Y Z. destruct (s01 _ _ _ _ A B X Y) as (s & S & Ss). destruct (s01 _ _ _ _ A C X Z) as (t & T & Tt). destruct (s01 _ _ _ _ B C Y Z) as (u & U & Uu).
    pose proof (add64 _ _ _ _ S T (small_big (s + t) ltac:(rewrite Rabs_pos_eq; lra))) as M. pose proof (rnd_ge0 (s + t) ltac:(lra)). pose proof (rnd_Zle (s + t) 2 ltac:(reflexivity) ltac:(lra)).
    pose proof (add64 _ _ _ _ M U (small_big (rnd (s + t) + u) ltac:(rewrite Rabs_pos_eq; lra))) as M2.
    eexists. split; [exact M2|]. split; [apply rnd_ge0; lra|apply rnd_Zle; [reflexivity|lra]].
  Qed.
  Lemma quarter a l x y : is64 a x -> is64 l y -> 0 <= x <= 1 -> 0 <= y <= 3 -> exists s, is64 (bfdiv (bfadd a l) (fme 4 0)) s /\ 0 <= s <= 1 /\ forall k, (0 <= k <= 100)%Z -> bpow radix2 (- (2 * k)) <= x -> bpow radix2 (- (2 * (k + 1))) <= s.
  Proof.
    intros A B X Y. pose proof (add64 _ _ _ _ A B (small_big (x + y) ltac:(rewrite Rabs_pos_eq; lra))) as M. pose proof (rnd_ge0 (x + y) ltac:(lra)). pose proof (rnd_Zle (x + y) 4 ltac:(reflexivity) ltac:(lra)).
    pose proof (div64 _ _ _ _ M (Z64 4 ltac:(reflexivity)) ltac:(lra)) as M2. specialize (M2 (small_big (rnd (x + y) / 4) ltac:(rewrite Rabs_pos_eq; lra))).
    eexists. split; [exact M2|]. split; [apply rnd_01; lra|]. intros k Hk Hx.
    rewrite <- (rnd_id (bpow radix2 (- (2 * (k + 1))))) by (apply fmt_bpow; lia). apply rnd_le.
    replace (- (2 * (k + 1)))%Z with (- (2 * k) + -2)%Z by lia. rewrite bpow_plus. change (bpow radix2 (-2)) with (/ 4).
    assert (bpow radix2 (- (2 * k)) <= rnd (x + y)). { rewrite <- (rnd_id (bpow radix2 (- (2 * k)))) by (apply fmt_bpow; lia). apply rnd_le. lra. } lra.
  Qed.
  Lemma rf_next_st k p : (0 <= k <= 100)%Z -> rfst k p -> rfst (k + 1) (rf_next (N := FL) p).
  Proof.
    destruct p as [[a b] c]. intros Hk (x & y & z & A & B & C & X & Y & Z). pose proof (bpow_gt_0 radix2 (- (2 * k))).
    destruct (lam01 a b c x y z A B C X Y ltac:(lra)) as (l & Ll & Bl).
    destruct (quarter _ _ _ _ A Ll X Bl) as (x' & X1 & X2 & _). destruct (quarter _ _ _ _ B Ll Y Bl) as (y' & Y1 & Y2 & _). destruct (quarter _ _ _ _ C Ll ltac:(lra) Bl) as (z' & Z1 & Z2 & Z3).
    exists x', y', z'. split; [exact X1|]. split; [exact Y1|]. split; [exact Z1|]. split; [exact X2|]. split; [exact Y2|]. split; [apply Z3; auto; lra|lra].
  Qed.
  Lemma rf_val_fin k p : good_rsqrt -> (0 <= k <= 20)%Z -> rfst k p -> ab 400 (rf_val (N := FL) p).
  Proof.
    intros GR Hk. destruct p as [[a b] c]. intros (x & y & z & A & B & C & X & Y & Z). pose proof (bpow_gt_0 radix2 (- (2 * k))) as B0.
    assert (Z40 : bpow radix2 (-40) <= z) by (apply Rle_trans with (bpow radix2 (- (2 * k))); [apply bpow_le; lia|lra]). pose proof (bpow_gt_0 radix2 (-40)) as B40.
    pose proof (add64 _ _ _ _ A B (small_big (x + y) ltac:(rewrite Rabs_pos_eq; lra))) as M1. pose proof (rnd_ge0 (x + y) ltac:(lra)). pose proof (rnd_Zle (x + y) 2 ltac:(reflexivity) ltac:(lra)).
    pose proof (add64 _ _ _ _ M1 C (small_big (rnd (x + y) + z) ltac:(rewrite Rabs_pos_eq; lra))) as M2. pose proof (rnd_Zle (rnd (x + y) + z) 3 ltac:(reflexivity) ltac:(lra)).
    assert (S40 : bpow radix2 (-40) <= rnd (rnd (x + y) + z)). { rewrite <- (rnd_id (bpow radix2 (-40))) by (apply fmt_bpow; lia). apply rnd_le. lra. }
    set (s := rnd (rnd (x + y) + z)) in *.
    pose proof (div64 _ _ _ _ M2 (Z64 3 ltac:(reflexivity)) ltac:(lra)) as M3. specialize (M3 (small_big (s / 3) ltac:(rewrite Rabs_pos_eq; lra))).
    assert (MU : bpow radix2 (- (42)) <= rnd (s / 3) <= 1).
    { split; [|apply rnd_01; lra]. rewrite <- (rnd_id (bpow radix2 (- (42)))) by (apply fmt_bpow; lia). apply rnd_le. change (- (42))%Z with (-40 + -2)%Z. rewrite bpow_plus. change (bpow radix2 (-2)) with (/ 4). lra. }
    set (mu := rnd (s / 3)) in *. unfold rf_val. set (fmu := ndiv FL _ (nZ FL 3)). assert (Mu : is64 fmu mu) by exact M3. clearbody fmu.
    assert (P : ab 60 (l_pow L fmu half_power)).
    { destruct (GR fmu mu Mu) as (w & W & Bw). { split; [|lra]. eapply Rle_trans; [|exact (proj1 MU)]. apply bpow_le; lia. }
      exists w. split; [exact W|]. pose proof (bpow_gt_0 radix2 (- (42))) as B42.
      assert (SQ : bpow radix2 (-21) <= sqrt mu). { rewrite <- (sqrt_square (bpow radix2 (-21))) by apply bpow_ge_0. apply sqrt_le_1_alt. rewrite <- bpow_plus. exact (proj1 MU). }
      assert (IS : 0 < / sqrt mu <= bpow radix2 21). { pose proof (bpow_gt_0 radix2 (-21)). split; [apply Rinv_0_lt_compat; lra|]. change 21%Z with (- (-21))%Z. rewrite bpow_opp. apply Rinv_le_contravar; auto. }
      apply Rabs_le_inv in Bw. apply Rabs_le. assert (bpow radix2 22 <= bpow radix2 60) by (apply bpow_le; lia). change (bpow radix2 22) with (2 * bpow radix2 21) in *. assert (/ 10 ^ 6 * / sqrt mu <= 1 * / sqrt mu) by (apply Rmult_le_compat_r; lra). lra. }
    assert (D : forall f v, is64 f v -> 0 <= v <= 1 -> ab 43 (bfsub (fme 1 0) (bfdiv f fmu))).
    { intros f v Fv Hv. apply (ab_sub 0 42); try lia; [apply ab_Z; [reflexivity|rewrite Rabs_R1; change (bpow radix2 0) with 1; lra]|].
      apply (ab_div 0 42 _ _ _ mu); try lia; auto; [|lra]. apply (is_ab _ _ v Fv). change (bpow radix2 0) with 1. rewrite Rabs_pos_eq; lra. }
    pose proof (D _ _ A X) as DX. pose proof (D _ _ B Y) as DY. pose proof (D _ _ C ltac:(lra)) as DZ. clear D.
    assert (Lit : forall n, (0 < n < 30)%Z -> is64 (fme n 0) (IZR n) /\ bpow radix2 (- 0) <= IZR n). { intros n Hn. split; [apply Z64; lia|]. change (bpow radix2 (- 0)) with 1. apply IZR_le. lia. }
    cbv zeta. change (nsub FL) with bfsub. change (ndiv FL) with bfdiv. change (nadd FL) with bfadd. change (nmul FL) with bfmul. change (nZ FL) with (fun z => fme z 0). cbv beta.
    change (npow FL fmu (nQ FL (-1) 2)) with (l_pow L fmu half_power). unfold sq. change (nmul FL) with bfmul.
    set (DXf := bfsub (fme 1 0) (bfdiv a fmu)) in *. set (DYf := bfsub (fme 1 0) (bfdiv b fmu)) in *. set (DZf := bfsub (fme 1 0) (bfdiv c fmu)) in *. clearbody DXf DYf DZf.
    assert (S1 : ab 90 (bfdiv (bfadd (bfadd (bfmul DXf DXf) (bfmul DYf DYf)) (bfmul DZf DZf)) (fme 4 0))).
    { destruct (Lit 4%Z ltac:(lia)) as [I4 J4]. apply (ab_div 90 0 _ _ _ 4); auto; try lia. apply (ab_add 89 86); try lia; [apply (ab_add 86 86); try lia|]; apply (ab_mul 43 43); auto; lia. }
    assert (S2 : ab 140 (bfdiv (bfadd (bfadd (bfmul (bfmul DXf DXf) DXf) (bfmul (bfmul DYf DYf) DYf)) (bfmul (bfmul DZf DZf) DZf)) (fme 6 0))).
    { destruct (Lit 6%Z ltac:(lia)) as [I6 J6]. apply (ab_div 140 0 _ _ _ 6); auto; try lia. apply (ab_add 135 130); try lia; [apply (ab_add 130 130); try lia|]; (apply (ab_mul 86 43); auto; try lia; apply (ab_mul 43 43); auto; lia). }
    set (s1 := bfdiv _ (fme 4 0)) in *. set (s2 := bfdiv _ (fme 6 0)) in *. clearbody s1 s2.
    assert (S12 : ab 180 (bfmul s1 s1)) by (apply (ab_mul 90 90); auto; lia). set (s12 := bfmul s1 s1) in *. clearbody s12.
    apply (ab_mul 60 310); auto; try lia.
    assert (Q : forall p q, (0 <= p < 8)%Z -> (Zpos q < 2 ^ 53)%Z -> ab 3 (nQ FL p q)).
    { intros p q Hp Hq. apply ab_Q; try lia. change (bpow radix2 3) with 8. rewrite Rabs_pos_eq by (apply IZR_le; lia). apply (IZR_le p 8); lia. }
    apply (ab_add 305 300); try lia.
    - destruct (Lit 5%Z ltac:(lia)) as [I5 J5]. destruct (Lit 7%Z ltac:(lia)) as [I7 J7]. destruct (Lit 6%Z ltac:(lia)) as [I6 J6].
      apply (ab_add 250 240); try lia.
      + apply (ab_add 200 190); try lia; [|apply (ab_div 180 0 _ _ _ 6); auto; lia]. apply (ab_add 100 145); try lia; [|apply (ab_div 140 0 _ _ _ 7); auto; lia]. apply (ab_add 0 95); try lia; [apply ab_Z; [reflexivity|rewrite Rabs_R1; change (bpow radix2 0) with 1; lra]|apply (ab_div 90 0 _ _ _ 5); auto; lia].
      + apply (ab_mul 93 140); auto; try lia. apply (ab_mul 3 90); auto; try lia. apply Q; [lia|reflexivity].
    - apply (ab_add 280 290); try lia.
      + apply (ab_mul 3 270); try lia; [apply Q; [lia|reflexivity]|]. apply (ab_mul 180 90); auto; lia.
      + apply (ab_mul 3 280); try lia; [apply Q; [lia|reflexivity]|]. apply (ab_mul 140 140); auto; lia.
  Qed.
End RF.
Section PIinf.
  Context (L : mlib).
  Notation FL := (FN L).
  Lemma rf_loop_nth tol : good_rsqrt L -> forall fuel k res (st : list (F * F * F)) (RFo : list F) i p v, (0 <= k)%Z -> (k + Z.of_nat fuel <= 20)%Z -> nth_error st i = Some p -> rfst k p -> nth_error RFo i = Some v -> ab 400 v ->
    exists w, nth_error (rf_loop (N := FL) tol fuel res st RFo) i = Some w /\ ab 400 w.
  Proof.
    intros GR. induction fuel as [|fuel IH]; intros k res st RFo i p v K0 K1 Hp Sp Hv Av; cbn [rf_loop].
    - exists v. auto.
    - destruct (nlt FL tol res); [|exists v; auto]. apply (IH (k + 1)%Z _ _ _ i (rf_next (N := FL) p) (rf_val (N := FL) p)); try lia.
      + exact (map_nth_error _ _ _ Hp).
      + apply rf_next_st; [lia|exact Sp].
      + exact (map_nth_error _ _ _ Hp).
      + apply (rf_val_fin L k); auto; lia.
  Qed.
  Lemma add_fin_inf (a : F) : is_finite a = true -> bfadd a (B754_infinity false) = B754_infinity false.
  Proof. destruct a as [[]|[]| |[] m e B]; cbn; intros H; try discriminate; reflexivity. Qed.
  Lemma mul_pos_inf (a : F) x : is64 a x -> 0 < x -> bfmul a (B754_infinity false) = B754_infinity false.
  Proof.
    intros [A E] P. destruct a as [s|s| |[] m e B]; try discriminate A; try reflexivity.
    - cbn in E. lra.
    - exfalso. cbn in E. assert (K : @F2R radix2 {| Fnum := Z.neg m; Fexp := e |} < 0) by (apply F2R_lt_0; reflexivity). rewrite E in K. lra.
  Qed.
  (** for n = 1 the routine for the third kind returns inf *)
  Lemma Pi_at_one (nm : list (F * F)) i (a b : F) m : good_rsqrt L -> nth_error nm i = Some (a, b) -> is64 a 1 -> is64 b m -> 0 <= m <= 1 -> nth_error (ellipticPiCarlson (N := FL) nm) i = Some (B754_infinity false).
  Proof.
    intros GR H A B M. unfold ellipticPiCarlson, Pi_tol. destruct nm as [|q nm]; [destruct i; discriminate|]. set (l := q :: nm) in *. clearbody l. cbv zeta.
    rewrite map2_nth_error.
    assert (RF : exists w, nth_error (RF_tol (N := FL) RES ITMAX (map (fun p => bfsub (fme 1 0) (snd p)) l)) i = Some w /\ ab 400 w).
    { unfold RF_tol. pose proof (Z64 0 ltac:(reflexivity)) as Z0. pose proof (Z64 1 ltac:(reflexivity)) as O1.
      apply (rf_loop_nth RES GR ITMAX 0 _ _ _ i (fme 0 0, bfsub (fme 1 0) b, fme 1 0) (fme 0 0)); try (unfold ITMAX; lia).
      - rewrite map_map, nth_error_map, H. reflexivity.
      - exists 0, (rnd (1 - m)), 1. split; [exact Z0|]. split; [apply sub64; auto; apply small_big; rewrite Rabs_pos_eq; lra|]. split; [exact O1|]. split; [lra|]. split; [apply rnd_01; lra|]. change (bpow radix2 (- (2 * 0))) with 1. lra.
      - rewrite map_map, nth_error_map, H. reflexivity.
      - apply (is_ab _ _ 0 Z0). rewrite Rabs_R0. apply bpow_ge_0. }
    destruct RF as (w & W & (wx & Wf & _)).
    match goal with |- context [RF_tol RES ITMAX ?x] => change x with (map (fun p : F * F => bfsub (fme 1 0) (snd p)) l) end. rewrite W.
    assert (RJ : nth_error (RJ_tol (N := FL) RES ITMAX (map (fun p => (bfsub (fme 1 0) (snd p), bfsub (fme 1 0) (fst p))) l)) i = Some (B754_infinity false)).
    { unfold RJ_tol. cbv zeta. rewrite scatter_nth_false.
      - rewrite map_map, nth_error_map, H. reflexivity.
      - rewrite !map_length. reflexivity.
      - rewrite rj_loop_length; rewrite ?map_length; auto. apply gather_length. rewrite !map_length. reflexivity.
      - rewrite map_map, nth_error_map, H. cbn [option_map fst snd]. f_equal. pose proof (Z64 0 ltac:(reflexivity)) as Z0. pose proof (Z64 1 ltac:(reflexivity)) as O1.
        change (Bltb (fme 0 0) (bfsub (fme 1 0) a) = false). rewrite (lt64 _ _ _ _ Z0 (sub_eq _ _ _ O1 A)). apply Rlt_bool_false. lra. }
    rewrite map2_nth_error. match goal with |- context [RJ_tol RES ITMAX ?x] => change x with (map (fun p : F * F => (bfsub (fme 1 0) (snd p), bfsub (fme 1 0) (fst p))) l) end. rewrite RJ. pose proof (H : nth_error (l : list (FL * FL)) i = Some (a, b)) as H'. rewrite H'. cbn [fst].
    change (Some (bfadd w (bfmul (bfmul (nQ FL 1 3) a) (B754_infinity false))) = Some (B754_infinity false)). f_equal.
    assert (T : exists t, is64 (bfmul (nQ FL 1 3) a) t /\ 0 < t).
    { assert (G : rg 2 (1 / 3)). { right. rewrite Rabs_pos_eq by lra. change (bpow radix2 (- (2))) with (/ 4). change (bpow radix2 2) with 4. lra. }
      destruct (div_rel 2 (fme 1 0) (fme 3 0) 1 3 ltac:(lia) (Z64 1 ltac:(reflexivity)) (Z64 3 ltac:(reflexivity)) ltac:(lra) G) as (t & T & D).
      exists (1 / 3 * t). split; [exact (mul_r1 _ _ _ D A)|]. pose proof (fac_pos _ _ T). lra. }
    destruct T as (t & T & Tp). rewrite (mul_pos_inf _ t T Tp). apply add_fin_inf. exact (proj1 Wf).
  Qed.
End PIinf.
(** ** Masks *)
Lemma gather_nth {A B} k : forall mask (l : list A) (dflt : list B) a, len mask = len dflt -> nth_error mask k = Some true -> nth_error l k = Some a ->
  exists i, nth_error (gather mask l) i = Some a /\ forall vals : list B, len vals = len (filter (fun b => b) mask) -> nth_error (scatter mask vals dflt) k = nth_error vals i.
Proof.
  induction k as [|k IH]; intros [|m mask] l [|d dflt] a HL Hm Ha; try discriminate.
  - injection Hm as ->. destruct l as [|x l]; [discriminate|]. injection Ha as ->. exists 0%nat. split; [reflexivity|]. intros [|v vals] Hv; [discriminate|reflexivity].
  - destruct l as [|x l]; [discriminate|]. cbn in HL, Hm, Ha. injection HL as HL. destruct (IH mask l dflt a HL Hm Ha) as (i & I1 & I2). destruct m.
    + exists (S i). split; [exact I1|]. intros [|v vals] Hv; [discriminate|]. cbn in *. apply I2. lia.
    + exists i. split; [exact I1|]. intros vals Hv. cbn in *. apply I2. auto.
Qed.
Lemma normal_nth (N : Num) (gamma R eps : N) pts k p : nth_error pts k = Some p -> vc_normal R (vc_r p, snd p) = true ->
  exists nm i PI, nth_error nm i = Some (vc_nm eps R (vc_r p, snd p)) /\ nth_error (ellipticPiCarlson nm) i = Some PI /\
    nth_error (vc_tang_u gamma R eps pts) k = Some (cart_of_polar2 p (vc_reg gamma eps R (vc_r p, snd p) PI)).
Proof.
  intros H A. set (rz := map (fun p => (vc_r p, snd p)) pts). set (mask := map (vc_normal R) rz).
  destruct (gather_nth k mask rz (map (vc_special gamma R) rz) (vc_r p, snd p)) as (i & I1 & I2).
  - unfold mask. rewrite !map_length. reflexivity.
  - unfold mask, rz. rewrite map_map, nth_error_map, H. cbn [option_map]. rewrite A. reflexivity.
  - unfold rz. rewrite nth_error_map, H. reflexivity.
  - set (sel := gather mask rz) in *. set (nm := map (vc_nm eps R) sel). exists nm, i.
    assert (HP : exists PI, nth_error (ellipticPiCarlson nm) i = Some PI).
    { destruct (nth_error (ellipticPiCarlson nm) i) as [q|] eqn:E; [eauto|]. apply nth_error_None in E. rewrite ellipticPiCarlson_length in E. unfold nm in E. rewrite map_length in E. apply nth_error_None in E. congruence. }
    destruct HP as (q & Hq). exists q. split; [unfold nm; rewrite nth_error_map, I1; reflexivity|]. split; [exact Hq|].
    unfold vc_tang_u, vc_tang_u_gen. rewrite map2_nth_error, H. unfold vc_tang_polar_gen. fold rz. fold mask. fold sel. fold nm. rewrite I2.
    + rewrite map2_nth_error, I1, Hq. reflexivity.
    + rewrite map2_length, ellipticPiCarlson_length. unfold nm. rewrite map_length, Nat.min_id. apply gather_length. unfold mask. rewrite map_length. reflexivity.
Qed.

(** ** Rounding next to the sheet *)
Lemma rnd_absorb v e : fmt v -> 2 <= v -> 0 <= e < bpow radix2 (-52) -> rnd (v + e) = v.
Proof.
  intros Fv Hv He. apply Rle_antisym.
  - apply round_N_le_midp; [apply exp64|exact Fv|]. rewrite succ_eq_pos by lra.
    assert (G : bpow radix2 (-900) <= v). { apply Rle_trans with (bpow radix2 1); [apply bpow_le; lia|change (bpow radix2 1) with 2; lra]. }
    destruct (mag_fmt v ltac:(lra) Fv G) as (j & m & X & Hm & U & Em). rewrite U.
    assert (J : (-51 <= j)%Z). { assert (bpow radix2 1 < bpow radix2 (j + 53)). { eapply Rle_lt_trans; [|rewrite <- Em; eapply Rle_lt_trans; [apply Rle_abs|apply bpow_mag_gt]]. change (bpow radix2 1) with 2. exact Hv. } apply lt_bpow in H. lia. }
    assert (K : bpow radix2 (1 + -52) <= bpow radix2 j) by (apply bpow_le; auto). rewrite bpow_plus in K. change (bpow radix2 1) with 2 in K. lra.
  - rewrite <- (rnd_id v Fv) at 1. apply rnd_le. lra.
Qed.

Lemma half64 a g : is64 a g -> rg 100 g -> is64 (bfdiv a (fme 2 0)) (g / 2).
Proof.
  intros A Gg. assert (Gh2 : rg 101 (g / 2)). { apply (rg_mul 100 1); auto. right. rewrite Rabs_pos_eq by lra. change (bpow radix2 (- (1))) with (/ 2). change (bpow radix2 1) with 2. lra. }
  assert (Fh : fmt (g / 2)).
  { destruct Gg as [->|Gg]; [replace (0 / 2) with 0 by field; apply fmt_0|]. pose proof (is64_fmt _ _ A) as Fg. unfold fmt, fexp64 in *.
    assert (Gx : generic_format radix2 (FLX_exp 53) g) by (apply generic_format_FLX_FLT with (1 := Fg)).
    apply generic_format_FLT_FLX.
    - unfold Rdiv. rewrite Rabs_mult, (Rabs_pos_eq (/ 2)) by lra. apply Rle_trans with (bpow radix2 (-100) * / 2); [|apply Rmult_le_compat_r; [lra|exact (proj1 Gg)]]. change (/ 2) with (bpow radix2 (-1)). rewrite <- bpow_plus. apply bpow_le. reflexivity || lia.
    - unfold Rdiv. change (/ 2) with (bpow radix2 (-1)). apply FLX_format_generic in Gx; [|reflexivity]. destruct Gx as [f X1 X2]. rewrite X1. apply generic_format_FLX. exists (Float radix2 (Fnum f) (Fexp f - 1)); [unfold F2R; cbn [Fnum Fexp]; unfold Zminus; rewrite bpow_plus; change (- (1))%Z with (-1)%Z; ring|exact X2]. }
  pose proof (div64 _ _ _ _ A (Z64 2 ltac:(reflexivity)) ltac:(lra) (proj2 (rg_rel 101 _ ltac:(lia) Gh2))) as H2. rewrite (rnd_id _ Fh) in H2. exact H2.
Qed.
Lemma eta_small : eta64 <= / 10 ^ 15.
Proof.
  unfold eta64. apply Rle_trans with (bpow radix2 (-1074)); [pose proof (bpow_gt_0 radix2 (-1074)); lra|]. apply Rle_trans with (bpow radix2 (-53)); [apply bpow_le; lia|]. change (bpow radix2 (-53)) with (/ 9007199254740992). lra.
Qed.
Lemma rnd_abs x : Rabs x <= 1000 -> Rabs (rnd x - x) <= / 10 ^ 12.
Proof.
  intros H. destruct (rnd_ex x) as (d & e & D & E & ->). replace (x * (1 + d) + e - x) with (x * d + e) by ring. eapply Rle_trans; [apply Rabs_triang|]. rewrite Rabs_mult.
  pose proof eta_small. assert (Rabs x * Rabs d <= 1000 * u53) by (apply Rmult_le_compat; auto; apply Rabs_pos). unfold u53 in *. lra.
Qed.
Lemma rg_I k x lo hi : lo <= Rabs x <= hi -> bpow radix2 (- k) <= lo -> hi <= bpow radix2 k -> rg k x.
Proof. intros H A B. right. lra. Qed.

Lemma b1000 x : Rabs x <= 1000 -> Rabs x <= big.
Proof.
  intros H. apply Rle_trans with (bpow radix2 10); [change (bpow radix2 10) with 1024; lra|]. assert (G : rg 10 (bpow radix2 10)) by (right; rewrite Rabs_pos_eq by apply bpow_ge_0; split; apply bpow_le; lia).
  pose proof (proj2 (rg_rel 10 _ ltac:(lia) G)) as K. rewrite Rabs_pos_eq in K by apply bpow_ge_0. exact K.
Qed.
(** ** Absolute errors *)
Definition near (e x y : R) : Prop := Rabs (x - y) <= e.
Lemma near_I e x y : near e x y <-> y - e <= x <= y + e.
Proof. unfold near. split; intros H; [apply Rabs_le_inv in H; lra|apply Rabs_le; lra]. Qed.
Lemma near_rnd e e' x y : near e x y -> Rabs x <= 1000 -> e + / 10 ^ 12 <= e' -> near e' (rnd x) y.
Proof. rewrite !near_I. intros H B K. pose proof (rnd_abs x B) as D. apply Rabs_le_inv in D. lra. Qed.
Lemma near_mul ex ey x y X Y A B e : near ex x X -> near ey y Y -> Rabs X <= A -> Rabs Y <= B -> ex * (B + ey) + A * ey <= e -> near e (x * y) (X * Y).
Proof.
  unfold near. intros H K HA HB HE. replace (x * y - X * Y) with ((x - X) * y + X * (y - Y)) by ring. eapply Rle_trans; [apply Rabs_triang|]. rewrite !Rabs_mult.
  assert (Rabs y <= B + ey). { replace y with (Y + (y - Y)) by ring. eapply Rle_trans; [apply Rabs_triang|]. lra. }
  pose proof (Rabs_pos (x - X)). pose proof (Rabs_pos (y - Y)). pose proof (Rabs_pos y). pose proof (Rabs_pos X).
  assert (Rabs (x - X) * Rabs y <= ex * (B + ey)) by (apply Rmult_le_compat; auto). assert (Rabs X * Rabs (y - Y) <= A * ey) by (apply Rmult_le_compat; auto). lra.
Qed.
Lemma near_inv ey y Y l : 0 < l -> l <= y -> l <= Y -> near ey y Y -> near (ey / (l * l)) (/ y) (/ Y).
Proof.
  unfold near. intros L0 H K N. replace (/ y - / Y) with ((Y - y) * / (y * Y)) by (field; lra). rewrite Rabs_mult, <- Rabs_Ropp. replace (- (Y - y)) with (y - Y) by ring.
  assert (LL : l * l <= y * Y) by (apply Rmult_le_compat; lra). assert (0 < l * l) by nra. rewrite (Rabs_pos_eq (/ _)) by (apply Rlt_le, Rinv_0_lt_compat; lra).
  unfold Rdiv. apply Rmult_le_compat; auto; [apply Rabs_pos|apply Rlt_le, Rinv_0_lt_compat; lra|apply Rinv_le_contravar; lra].
Qed.
Lemma near_sqrt ex x X l : 0 < l -> 0 <= x -> l <= sqrt X -> 0 <= X -> near ex x X -> near (ex / l) (sqrt x) (sqrt X).
Proof.
  unfold near. intros L0 H K HX N. pose proof (sqrt_pos x) as P. assert (E : (sqrt x - sqrt X) * (sqrt x + sqrt X) = x - X) by (pose proof (sqrt_sqrt x H); pose proof (sqrt_sqrt X HX); nra).
  replace (sqrt x - sqrt X) with ((x - X) * / (sqrt x + sqrt X)) by (rewrite <- E; field; lra). rewrite Rabs_mult, (Rabs_pos_eq (/ _)) by (apply Rlt_le, Rinv_0_lt_compat; lra).
  unfold Rdiv. apply Rmult_le_compat; auto; [apply Rabs_pos|apply Rlt_le, Rinv_0_lt_compat; lra|apply Rinv_le_contravar; lra].
Qed.
Lemma Kell_lip e m m' : 0 <= e <= / 100 -> 0 <= m <= 9 / 10 -> 0 <= m' <= 9 / 10 -> near e m m' -> near (120 * e) (Kell m) (Kell m').
Proof.
  assert (G : forall m m', 0 <= m -> m <= m' -> m' <= 9 / 10 -> 0 <= e <= / 100 -> m' - m <= e -> 0 <= Kell m' - Kell m <= 120 * e).
  { clear. intros m m' H0 H1 H2 He H. destruct (Kell_near m m' H1 ltac:(lra)) as [A B]. split; [lra|]. destruct (Kell_bounds m ltac:(lra)) as [K1 K2].
    set (k := (1 - m') / (1 - m)) in *. assert (Ek : k * (1 - m) = 1 - m') by (unfold k; field; lra). assert (K : 1 - 10 * e <= k <= 1) by (split; nra).
    assert (S : k <= sqrt k). { rewrite <- (sqrt_square k) at 1 by lra. apply sqrt_le_1_alt. nra. }
    assert (I : / sqrt k <= / (1 - 10 * e)) by (apply Rinv_le_contravar; lra). assert (J : / (1 - 10 * e) <= 1 + 20 * e). { apply Rmult_le_reg_r with (1 - 10 * e); [lra|]. rewrite Rinv_l by lra. nra. }
    unfold Rdiv in B. assert (Kell m * / sqrt k <= Kell m * (1 + 20 * e)) by (apply Rmult_le_compat_l; lra). nra. }
  intros He H H' N. apply near_I in N. apply near_I. destruct (Rle_dec m m') as [D|D].
  - pose proof (G m m' ltac:(lra) D ltac:(lra) He ltac:(lra)). lra.
  - pose proof (G m' m ltac:(lra) ltac:(lra) ltac:(lra) He ltac:(lra)). lra.
Qed.

Section Sheet.
  Context (L : mlib).
  Notation FL := (FN L).
  (** the library's ellipk, to 6 decimals *)
  Definition good_ellipk : Prop := forall (a : F) m, is64 a m -> 0 <= m <= 9 / 10 -> exists y, is64 (l_ellipk L a) y /\ Rabs (y - Kell m) <= / 10 ^ 6.
  Variables (a x y c e : F) (g z : R) (j : Z).
  Let rho_ : R := 1 + IZR j * bpow radix2 (-51).
  Hypothesis Hj : (j <> 0 /\ Z.abs j < 2 ^ 25)%Z.
  Hypothesis A : is64 a g.
  Hypothesis Gg : rg 100 g.
  Hypothesis X : is64 x rho_.
  Hypothesis Y : is64 y 0.
  Hypothesis C : is64 c z.
  Hypothesis E : is64 e 0.
  Hypothesis Hz : 1 <= Rabs z <= 8.
  Hypothesis GR : good_rsqrt L.
  Hypothesis GK : good_ellipk.
  Notation ONE := (fme 1 0).
  Let T1 : R := if Rlt_dec rho_ 1 then 1 else 0.
  Let Q0 : R := z / (PI * sqrt (4 + z * z)) * Kell (4 / (4 + z * z)).

  Lemma b51 : bpow radix2 (-51) = / 2251799813685248. Proof. reflexivity. Qed.
  Lemma delta : - / 67108864 < rho_ - 1 < / 67108864 /\ rho_ <> 1.
  Proof using Hj.
    unfold rho_. rewrite b51. destruct Hj as [J0 J1]. assert (IZR j < 33554432) by (apply (IZR_lt j (2 ^ 25)); lia). assert (- 33554432 < IZR j) by (apply (IZR_lt (- 2 ^ 25)); lia). split; [lra|].
    intros K. apply J0. apply eq_IZR. lra.
  Qed.
  Lemma O1 : is64 ONE 1. Proof. apply (Z64 1). reflexivity. Qed.
  Lemma Rv : is64 (vc_r (N := FL) (x, y, c)) rho_.
  Proof using Hj X Y.
    pose proof delta as [D _]. assert (M := mul64 _ _ _ _ X X (small_big (rho_ * rho_) ltac:(rewrite Rabs_pos_eq; nra))). pose proof (add_r0 _ _ _ M (mul_l0 _ _ _ Y Y)) as M2.
    assert (P : 0 <= rnd (rho_ * rho_)) by (apply rnd_ge0; nra). pose proof (sqrt64 _ _ M2 P) as M3. rewrite sqrt_sq_rnd in M3; [exact M3|lra|eapply is64_fmt; exact X|].
    apply (rg_I _ _ (/ 2) 2); [rewrite Rabs_pos_eq; lra| |]; [apply Rle_trans with (bpow radix2 (-1)); [apply bpow_le; lia|change (bpow radix2 (-1)) with (/ 2); lra]|apply Rle_trans with (bpow radix2 1); [change (bpow radix2 1) with 2; lra|apply bpow_le; lia]].
  Qed.
  Lemma normal : vc_normal (N := FL) ONE (vc_r (N := FL) (x, y, c), c) = true.
  Proof using Hj X Y C Hz.
    pose proof Rv as R0. set (r := vc_r (N := FL) (x, y, c)) in *. clearbody r. pose proof delta as [D _]. unfold vc_normal. cbn [fst snd]. apply negb_true_iff, orb_false_iff. split.
    - unfold vc_isaxis, EPS_AXIS. destruct (div_rel 30 (fme 1 0) (fme 10000000 0) 1 10000000) as (t & T & Dd); [lia|apply (Z64 1); reflexivity|apply (Z64 10000000); reflexivity|lra| |].
      { right. rewrite Rabs_pos_eq by lra. change (bpow radix2 (- (30))) with (/ 1073741824). change (bpow radix2 30) with 1073741824. lra. }
      pose proof (mul_r1 _ _ _ Dd O1) as M. refine (eq_trans (lt64 _ _ _ _ R0 M) _). apply Rlt_bool_false. pose proof (fac_20 1 t ltac:(lia) T). lra.
    - unfold vc_isrim. apply andb_false_iff. right. change (Bltb (Babs (bfdiv c ONE)) (nQ FL 1 100000000) = false).
      pose proof (div64 _ _ _ _ C O1 ltac:(lra)) as M. replace (z / 1) with z in M by field. specialize (M (proj2 (rg_rel 3 z ltac:(lia) (rg_I 3 z 1 8 Hz ltac:(change (bpow radix2 (- (3))) with (/ 8); lra) ltac:(change (bpow radix2 3) with 8; lra))))).
      rewrite (rnd_is _ _ C) in M. destruct (div_rel 30 (fme 1 0) (fme 100000000 0) 1 100000000) as (t & T & Dd); [lia|apply (Z64 1); reflexivity|apply (Z64 100000000); reflexivity|lra| |].
      { right. rewrite Rabs_pos_eq by lra. change (bpow radix2 (- (30))) with (/ 1073741824). change (bpow radix2 30) with 1073741824. lra. }
      refine (eq_trans (lt64 _ _ _ _ (abs64 _ _ M) Dd) _). apply Rlt_bool_false. pose proof (fac_20 1 t ltac:(lia) T). lra.
  Qed.
  Lemma num4 (r : F) : is64 r rho_ -> is64 (bfmul (bfmul (fme 4 0) r) ONE) (4 * rho_).
  Proof using Hj.
    intros R0. pose proof delta as [D _]. apply mul_r1; [|exact O1]. apply (mul64' _ _ 4 rho_); auto; [apply (Z64 4); reflexivity| |apply Rle_lt_trans with (bpow radix2 3); [change (bpow radix2 3) with 8; rewrite Rabs_pos_eq; lra|apply bpow_lt; lia]].
    replace (4 * rho_) with (IZR (2 ^ 51 + j) * bpow radix2 (-49)). { apply fmt_me; lia. } unfold rho_. rewrite b51, plus_IZR. change (bpow radix2 (-49)) with (/ 562949953421312). change (IZR (2 ^ 51)) with 2251799813685248. field.
  Qed.
  Lemma sum2 (r : F) : is64 r rho_ -> is64 (bfadd ONE r) (1 + rho_).
  Proof using Hj.
    intros R0. pose proof delta as [D _]. apply (add64' _ _ 1 rho_); auto; [exact O1| |apply Rle_lt_trans with (bpow radix2 3); [change (bpow radix2 3) with 8; rewrite Rabs_pos_eq; lra|apply bpow_lt; lia]].
    replace (1 + rho_) with (IZR (2 ^ 52 + j) * bpow radix2 (-51)). { apply fmt_me; lia. } unfold rho_. rewrite b51, plus_IZR. change (IZR (2 ^ 52)) with 4503599627370496. field.
  Qed.
  (** the square of R + r loses its last term: n = 4rR/(R+r)^2 is computed as 1 *)
  Lemma sq2 (r : F) : is64 r rho_ -> is64 (bfmul (bfadd ONE r) (bfadd ONE r)) (4 * rho_).
  Proof using Hj.
    intros R0. pose proof delta as [D _]. pose proof (sum2 r R0) as S. pose proof (is64_fmt _ _ (num4 r R0)) as F4.
    assert (M := mul64 _ _ _ _ S S (b1000 ((1 + rho_) * (1 + rho_)) ltac:(rewrite Rabs_pos_eq; nra))). replace ((1 + rho_) * (1 + rho_)) with (4 * rho_ + (rho_ - 1) * (rho_ - 1)) in M by ring.
    rewrite rnd_absorb in M; [exact M|exact F4|lra|]. change (bpow radix2 (-52)) with (/ 4503599627370496). pose proof (Rle_0_sqr (rho_ - 1)) as Q. unfold Rsqr in Q. split; [exact Q|]. apply Rlt_le_trans with (/ 67108864 * / 67108864); [|lra].
    rewrite <- (Rabs_pos_eq _ Q). rewrite Rabs_mult. assert (Rabs (rho_ - 1) < / 67108864) by (apply Rabs_def1; lra). pose proof (Rabs_pos (rho_ - 1)). apply Rmult_le_0_lt_compat; auto.
  Qed.

  Lemma zz : 1 <= z * z <= 64.
  Proof using Hz. rewrite <- (Rabs_pos_eq (z * z)) by apply (Rle_0_sqr z). rewrite Rabs_mult. destruct Hz. pose proof (Rabs_pos z). split; nra. Qed.
  Let S0 : R := 4 + z * z.
  (** the modulus *)
  Lemma k2v (r : F) : is64 r rho_ -> exists kap, is64 (bfdiv (bfmul (bfmul (fme 4 0) r) ONE) (bfadd (bfmul (bfadd ONE r) (bfadd ONE r)) (bfmul c c))) kap /\ near (/ 10 ^ 7) kap (4 / S0).
  Proof using Hj C Hz.
    intros R0. pose proof delta as [D _]. pose proof zz as Z2. pose proof (mul64 _ _ _ _ C C (b1000 (z * z) ltac:(rewrite Rabs_pos_eq; lra))) as M.
    assert (N1 : near (/ 10 ^ 12) (rnd (z * z)) (z * z)) by (apply (near_rnd 0); [apply near_I; lra|rewrite Rabs_pos_eq; lra|lra]). pose proof (proj1 (near_I _ _ _) N1) as N1'.
    pose proof (add64 _ _ _ _ (sq2 r R0) M (b1000 (4 * rho_ + rnd (z * z)) ltac:(rewrite Rabs_pos_eq; lra))) as M2.
    assert (N2 : near (7 / 10 ^ 8) (rnd (4 * rho_ + rnd (z * z))) S0) by (apply (near_rnd (61 / 10 ^ 9)); [apply near_I; unfold S0; lra|rewrite Rabs_pos_eq; lra|lra]). pose proof (proj1 (near_I _ _ _) N2) as N2'.
    set (S' := rnd (4 * rho_ + rnd (z * z))) in *. unfold S0 in N2'. 
    assert (NQ : near (9 / 10 ^ 8) (4 * rho_ * / S') (4 * / S0)).
    { apply (near_mul (6 / 10 ^ 8) (7 / 10 ^ 8 / (4 * 4)) _ _ _ _ 4 (/ 4)); [apply near_I; lra| | | |lra].
      - apply near_inv; auto; unfold S0; lra.
      - rewrite Rabs_pos_eq; lra.
      - rewrite Rabs_pos_eq by (apply Rlt_le, Rinv_0_lt_compat; unfold S0; lra). apply Rinv_le_contravar; unfold S0; lra. }
    assert (B : Rabs (4 * rho_ / S') <= 1000). { pose proof (proj1 (near_I _ _ _) NQ) as Q. assert (0 < / S0 <= / 4) by (split; [apply Rinv_0_lt_compat|apply Rinv_le_contravar]; unfold S0; lra). apply Rabs_le. unfold Rdiv. lra. }
    eexists. split; [apply (div64 _ _ _ _ (num4 r R0) M2); [lra|apply b1000; exact B]|]. apply (near_rnd (9 / 10 ^ 8)); auto. lra.
  Qed.
  Lemma S0_facts : 5 <= S0 <= 68 /\ 0 < sqrt S0 /\ sqrt S0 * sqrt S0 = S0 /\ 4 / 68 <= 4 / S0 <= 8 / 10 /\ sqrt (4 / S0) = 2 / sqrt S0 /\ Rabs (z / sqrt S0) <= 1 /\ 24 / 100 <= sqrt (4 / S0).
  Proof using Hz.
    pose proof zz as Z2. assert (H : 5 <= S0 <= 68) by (unfold S0; lra). assert (P : 0 < sqrt S0) by (apply sqrt_lt_R0; lra).
    assert (I : / 68 <= / S0 <= / 5) by (split; apply Rinv_le_contravar; lra). pose proof (sqrt_sqrt S0 ltac:(lra)) as SS.
    split; [exact H|]. split; [exact P|]. split; [exact SS|]. split; [unfold Rdiv; lra|]. split.
    - rewrite sqrt_div by lra. replace 4 with (2 * 2) by ring. rewrite sqrt_square by lra. reflexivity.
    - split.
      + apply Rsqr_incr_0; [|apply Rabs_pos|lra]. rewrite <- Rsqr_abs. unfold Rsqr. replace (z / sqrt S0 * (z / sqrt S0)) with (z * z * / (sqrt S0 * sqrt S0)) by (field; lra). rewrite SS.
        apply Rmult_le_reg_r with S0; [lra|]. rewrite Rmult_assoc, Rinv_l by lra. unfold S0. lra.
      + rewrite <- (sqrt_square (24 / 100)) by lra. apply sqrt_le_1_alt. unfold Rdiv. lra.
  Qed.
  Definition PIF : F := fme 884279719003555 (-48).
  (** the whole expression, with the third-kind term dropped *)
  Lemma uzv (r Kf E0 : F) kf kap : is64 r rho_ -> is64 kf kap -> near (/ 10 ^ 7) kap (4 / S0) -> is64 Kf (B2R Kf) -> near (/ 10 ^ 6) (B2R Kf) (Kell kap) -> is64 E0 0 ->
    exists q, is64 (bfmul (bfdiv (bfmul c (bfsqrt kf)) (bfmul (bfmul (fme 2 0) PIF) (bfsqrt (bfmul r ONE)))) (bfadd Kf E0)) q /\ near (/ 10 ^ 4) q Q0.
  Proof using Hj C Hz.
    intros R0 KF NK HK NKf HE. pose proof delta as [D _]. pose proof zz as Z2. destruct S0_facts as (S5 & SP & SS & S4 & SQ & SZ & SL). pose proof PI_num as PN.
    pose proof (proj1 (near_I _ _ _) NK) as NK'.
    (* K *)
    destruct (Kell_bounds (4 / S0) ltac:(lra)) as [K1 K2]. pose proof (Kell_lip (/ 10 ^ 7) kap (4 / S0) ltac:(lra) ltac:(lra) ltac:(lra) NK) as NL.
    assert (NK0 : near (14 / 10 ^ 6) (B2R Kf) (Kell (4 / S0))) by (apply near_I in NL, NKf; apply near_I; lra).
    pose proof (add_r0 _ _ _ HK HE) as HKE.
    (* z k *)
    pose proof (sqrt64 _ _ KF ltac:(lra)) as M1. assert (N1 : near (6 / 10 ^ 7) (rnd (sqrt kap)) (sqrt (4 / S0))).
    { apply (near_rnd (/ 10 ^ 7 / (24 / 100))); [apply near_sqrt; auto; lra| |lra]. rewrite Rabs_pos_eq by apply sqrt_pos. apply Rle_trans with 1; [|lra]. rewrite <- sqrt_1. apply sqrt_le_1_alt. lra. }
    assert (SU : Rabs (sqrt (4 / S0)) <= 1). { rewrite Rabs_pos_eq by apply sqrt_pos. rewrite <- sqrt_1. apply sqrt_le_1_alt. lra. }
    assert (N2 : near (5 / 10 ^ 6) (z * rnd (sqrt kap)) (z * sqrt (4 / S0))) by (apply (near_mul 0 (6 / 10 ^ 7) _ _ _ _ 8 1); auto; [apply near_I; lra|lra|lra]).
    assert (ZS : Rabs (z * sqrt (4 / S0)) <= 2). { rewrite SQ. replace (z * (2 / sqrt S0)) with (2 * (z / sqrt S0)) by (field; lra). rewrite Rabs_mult, (Rabs_pos_eq 2) by lra. lra. }
    assert (B2 : Rabs (z * rnd (sqrt kap)) <= 1000) by (apply near_I in N2; apply Rabs_le_inv in ZS; apply Rabs_le; lra).
    pose proof (mul64 _ _ _ _ C M1 (b1000 _ B2)) as M2. assert (N2r : near (6 / 10 ^ 6) (rnd (z * rnd (sqrt kap))) (z * sqrt (4 / S0))) by (apply (near_rnd (5 / 10 ^ 6)); auto; lra).
    (* 2 pi sqrt r *)
    assert (HP : is64 PIF (IZR 884279719003555 * bpow radix2 (-48))) by (apply me64; [reflexivity|lia]). change (bpow radix2 (-48)) with (/ 281474976710656) in HP. set (p := IZR 884279719003555 * / 281474976710656) in *.
    assert (PP : 3.14159 < p < 3.1416) by (unfold p; lra). pose proof (mul64 _ _ _ _ (Z64 2 ltac:(reflexivity)) HP (b1000 (2 * p) ltac:(rewrite Rabs_pos_eq; lra))) as M3.
    assert (N3 : near (3 / 10 ^ 5) (rnd (2 * p)) (2 * PI)) by (apply (near_rnd (2 / 10 ^ 5)); [apply near_I; lra|rewrite Rabs_pos_eq; lra|lra]).
    pose proof (sqrt64 _ _ (mul_r1 _ _ _ R0 O1) ltac:(lra)) as M4. assert (NS : near (3 / 10 ^ 8) (sqrt rho_) 1) by (rewrite <- sqrt_1; replace (3 / 10 ^ 8) with (3 / 10 ^ 8 / 1) by field; apply near_sqrt; try lra; [rewrite sqrt_1; lra|apply near_I; lra]).
    pose proof (proj1 (near_I _ _ _) NS) as NS'. assert (N4 : near (4 / 10 ^ 8) (rnd (sqrt rho_)) 1) by (apply (near_rnd (3 / 10 ^ 8)); auto; [rewrite Rabs_pos_eq; lra|lra]).
    assert (N5 : near (4 / 10 ^ 5) (rnd (2 * p) * rnd (sqrt rho_)) (2 * PI)). { rewrite <- (Rmult_1_r (2 * PI)). apply (near_mul (3 / 10 ^ 5) (4 / 10 ^ 8) _ _ _ _ 7 1); auto; [rewrite Rabs_pos_eq; lra|rewrite Rabs_R1; lra|lra]. }
    pose proof (proj1 (near_I _ _ _) N5) as N5'. pose proof (mul64 _ _ _ _ M3 M4 (b1000 (rnd (2 * p) * rnd (sqrt rho_)) ltac:(rewrite Rabs_pos_eq; lra))) as M5.
    assert (N5r : near (5 / 10 ^ 5) (rnd (rnd (2 * p) * rnd (sqrt rho_))) (2 * PI)) by (apply (near_rnd (4 / 10 ^ 5)); auto; [rewrite Rabs_pos_eq; lra|lra]). pose proof (proj1 (near_I _ _ _) N5r) as N5r'.
    set (dn := rnd (rnd (2 * p) * rnd (sqrt rho_))) in *. set (zk := rnd (z * rnd (sqrt kap))) in *. clearbody dn zk.
    (* quotient *)
    assert (N6 : near (5 / 10 ^ 6) (zk * / dn) (z * sqrt (4 / S0) * / (2 * PI))).
    { apply (near_mul (6 / 10 ^ 6) (5 / 10 ^ 5 / (6 * 6)) _ _ _ _ 2 (/ 6)); auto; [apply near_inv; auto; lra| |lra]. rewrite Rabs_pos_eq by (apply Rlt_le, Rinv_0_lt_compat; lra). apply Rinv_le_contravar; lra. }
    assert (EB : z * sqrt (4 / S0) * / (2 * PI) = z / (PI * sqrt S0)) by (rewrite SQ; field; split; lra). rewrite EB in N6.
    assert (BB : Rabs (z / (PI * sqrt S0)) <= / 3). { replace (z / (PI * sqrt S0)) with (z / sqrt S0 * / PI) by (field; split; lra). rewrite Rabs_mult, (Rabs_pos_eq (/ PI)) by (apply Rlt_le, Rinv_0_lt_compat; lra). assert (0 < / PI <= / 3) by (split; [apply Rinv_0_lt_compat|apply Rinv_le_contravar]; lra). pose proof (Rabs_pos (z / sqrt S0)). nra. }
    assert (B6 : Rabs (zk / dn) <= 1000) by (apply near_I in N6; apply Rabs_le_inv in BB; apply Rabs_le; fold (zk / dn) in N6; lra).
    pose proof (div64 _ _ _ _ M2 M5 ltac:(lra) (b1000 _ B6)) as M6. assert (N6r : near (6 / 10 ^ 6) (rnd (zk / dn)) (z / (PI * sqrt S0))) by (apply (near_rnd (5 / 10 ^ 6)); auto; lra).
    assert (N7 : near (5 / 10 ^ 5) (rnd (zk / dn) * B2R Kf) (z / (PI * sqrt S0) * Kell (4 / S0))) by (apply (near_mul (6 / 10 ^ 6) (14 / 10 ^ 6) _ _ _ _ (/ 3) 6); auto; [rewrite Rabs_pos_eq; lra|lra]).
    change (z / (PI * sqrt S0) * Kell (4 / S0)) with Q0 in N7.
    assert (BQ : Rabs Q0 <= 2). { unfold Q0. fold S0. rewrite Rabs_mult, (Rabs_pos_eq (Kell _)) by lra. pose proof (Rabs_pos (z / (PI * sqrt S0))). nra. }
    assert (B7 : Rabs (rnd (zk / dn) * B2R Kf) <= 1000) by (apply near_I in N7; apply Rabs_le_inv in BQ; apply Rabs_le; lra).
    eexists. split; [exact (mul64 _ _ _ _ M6 HKE (b1000 _ B7))|]. apply (near_rnd (5 / 10 ^ 5)); auto. lra.
  Qed.
  Lemma eqe : neqb FL e (fme 0 0) = true.
  Proof using E. refine (eq_trans (eq64 _ _ _ _ E (Z64 0 ltac:(reflexivity))) _). apply Req_bool_true. reflexivity. Qed.
  Lemma fin_not_inf (q : F) t : is64 q t -> Beqb q (B754_infinity false) = false.
  Proof. intros [Q _]. destruct q as [[]|[]| |[] m' e' B]; try discriminate Q; reflexivity. Qed.
  Lemma reg (r PIv : F) : is64 r rho_ -> PIv = B754_infinity false -> exists u, is64 (snd (vc_reg (N := FL) a e ONE (r, c) PIv)) u /\ near (/ 10 ^ 4 * Rabs g) u (g / 2 * (T1 + Q0)).
  Proof using Hj A Gg C E Hz GK.
    intros R0 HP. pose proof delta as [D Dn]. pose proof O1 as O. pose proof (Z64 0 ltac:(reflexivity)) as O0.
    destruct (k2v r R0) as (kap & KV & NK). destruct S0_facts as (S5 & _ & _ & S4 & _). pose proof (proj1 (near_I _ _ _) NK) as NK'.
    assert (EK : vc_k2 (N := FL) e ONE r c = bfdiv (bfmul (bfmul (fme 4 0) r) ONE) (bfadd (bfmul (bfadd ONE r) (bfadd ONE r)) (bfmul c c))) by (unfold vc_k2; change (nZ FL 0) with (fme 0 0); rewrite eqe; reflexivity).
    set (kf := bfdiv _ _) in *. clearbody kf. destruct (GK kf kap KV ltac:(lra)) as (Kr & K1 & K2).
    assert (EF : vc_fixK (N := FL) (nellipk FL kf) = l_ellipk L kf). { unfold vc_fixK. assert (Q : neqb FL (nellipk FL kf) (ninf FL) = false) by exact (fin_not_inf _ _ K1). rewrite Q. reflexivity. }
    assert (EPI : vc_fixPI (N := FL) ONE r PIv = fme 0 0). { unfold vc_fixPI. subst PIv. assert (Q : neqb FL r ONE = false) by (refine (eq_trans (eq64 _ _ _ _ R0 O) _); apply Req_bool_false; auto). rewrite Q. reflexivity. }
    assert (ET : is64 (vc_T1 (N := FL) e ONE r c) T1).
    { unfold vc_T1. change (nZ FL 0) with (fme 0 0). rewrite eqe. cbn [negb andb]. unfold T1. assert (Q : nlt FL r ONE = if Rlt_dec rho_ 1 then true else false). { refine (eq_trans (lt64 _ _ _ _ R0 O) _). destruct (Rlt_dec rho_ 1); [apply Rlt_bool_true; auto|apply Rlt_bool_false; lra]. }
      rewrite Q. destruct (Rlt_dec rho_ 1); [exact O|]. assert (Q' : neqb FL r ONE = false) by (refine (eq_trans (eq64 _ _ _ _ R0 O) _); apply Req_bool_false; auto). rewrite Q'. exact O0. }
    assert (Z0 : is64 (bfmul (bfdiv (bfsub ONE r) (bfadd ONE r)) (fme 0 0)) 0).
    { assert (M := sub64 _ _ _ _ O R0 (b1000 (1 - rho_) ltac:(apply Rabs_le; lra))). assert (N1 : near (/ 10 ^ 6) (rnd (1 - rho_)) 0) by (apply (near_rnd (/ 10 ^ 7)); [apply near_I; lra|apply Rabs_le; lra|lra]). apply near_I in N1.
      assert (B : Rabs (rnd (1 - rho_) / (1 + rho_)) <= 1000). { unfold Rdiv. rewrite Rabs_mult. assert (Rabs (/ (1 + rho_)) <= 1). { rewrite Rabs_pos_eq by (apply Rlt_le, Rinv_0_lt_compat; lra). rewrite <- Rinv_1. apply Rinv_le_contravar; lra. } assert (Rabs (rnd (1 - rho_)) <= 1) by (apply Rabs_le; lra). pose proof (Rabs_pos (/ (1 + rho_))). pose proof (Rabs_pos (rnd (1 - rho_))). nra. }
      exact (mul_r0 _ _ _ (div64 _ _ _ _ M (sum2 r R0) ltac:(lra) (b1000 _ B)) O0). }
    assert (HK : is64 (l_ellipk L kf) (B2R (l_ellipk L kf))) by (split; [exact (proj1 K1)|reflexivity]). rewrite <- (proj2 K1) in K2.
    destruct (uzv r (l_ellipk L kf) _ kf kap R0 KV NK HK K2 Z0) as (q & Q1 & Q2).
    unfold vc_reg. rewrite EK, EF, EPI. cbn [snd].
    match goal with |- exists u, is64 ?t u /\ _ => change t with (bfmul (bfdiv a (fme 2 0)) (bfadd (vc_T1 (N := FL) e ONE r c) (bfmul (bfdiv (bfmul c (bfsqrt kf)) (bfmul (bfmul (fme 2 0) PIF) (bfsqrt (bfmul r ONE)))) (bfadd (l_ellipk L kf) (bfmul (bfdiv (bfsub ONE r) (bfadd ONE r)) (fme 0 0)))))) end.
    assert (TT : 0 <= T1 <= 1) by (unfold T1; destruct (Rlt_dec rho_ 1); lra).
    assert (BQ : Rabs Q0 <= 2).
    { unfold Q0. fold S0. destruct S0_facts as (_ & SP & _ & _ & _ & SZ & _). pose proof PI_num. destruct (Kell_bounds (4 / S0) ltac:(lra)). rewrite Rabs_mult, (Rabs_pos_eq (Kell _)) by lra. replace (z / (PI * sqrt S0)) with (z / sqrt S0 * / PI) by (field; split; lra).
      rewrite Rabs_mult, (Rabs_pos_eq (/ PI)) by (apply Rlt_le, Rinv_0_lt_compat; lra). assert (0 < / PI <= / 3) by (split; [apply Rinv_0_lt_compat|apply Rinv_le_contravar]; lra). pose proof (Rabs_pos (z / sqrt S0)). assert (Rabs (z / sqrt S0) * / PI <= / 3) by nra. assert (0 <= Rabs (z / sqrt S0) * / PI) by nra. nra. }
    apply Rabs_le_inv in BQ. pose proof (proj1 (near_I _ _ _) Q2) as Q2'.
    pose proof (add64 _ _ _ _ ET Q1 (b1000 (T1 + q) ltac:(apply Rabs_le; lra))) as M.
    assert (NV : near (11 / 10 ^ 5) (rnd (T1 + q)) (T1 + Q0)) by (apply (near_rnd (/ 10 ^ 4)); [apply near_I; lra|apply Rabs_le; lra|lra]). set (v := rnd (T1 + q)) in *. clearbody v. pose proof (proj1 (near_I _ _ _) NV) as NV'.
    pose proof (half64 a g A Gg) as Hh.
    assert (BV : Rabs (g / 2 * v) <= 4 * Rabs g). { rewrite Rabs_mult. unfold Rdiv. rewrite Rabs_mult, (Rabs_pos_eq (/ 2)) by lra. assert (Rabs v <= 4) by (apply Rabs_le; lra). pose proof (Rabs_pos v). pose proof (Rabs_pos g). nra. }
    assert (BB : Rabs (g / 2 * v) <= big). { eapply Rle_trans; [exact BV|]. assert (G4 : rg 102 (4 * g)) by (apply (rg_mul 2 100); auto; apply (rg_I _ _ 4 4); [rewrite Rabs_pos_eq; lra|change (bpow radix2 (- (2))) with (/ 4); lra|change (bpow radix2 2) with 4; lra]). pose proof (proj2 (rg_rel 102 _ ltac:(lia) G4)) as H. rewrite Rabs_mult, (Rabs_pos_eq 4) in H by lra. exact H. }
    eexists. split; [exact (mul64 _ _ _ _ Hh M BB)|]. unfold near.
    pose proof (Rabs_pos g) as Pg. destruct Gg as [G0|G1].
    { rewrite G0. replace (0 / 2 * v) with 0 by field. rewrite rnd_0. replace (0 - 0 / 2 * (T1 + Q0)) with 0 by field. rewrite Rabs_R0. lra. }
    destruct (rnd_ex (g / 2 * v)) as (d' & e' & Dd & Ee & ->).
    replace (g / 2 * v * (1 + d') + e' - g / 2 * (T1 + Q0)) with (g / 2 * (v - (T1 + Q0)) + (g / 2 * v * d' + e')) by ring. eapply Rle_trans; [apply Rabs_triang|].
    assert (H1 : Rabs (g / 2 * (v - (T1 + Q0))) <= Rabs g / 2 * (11 / 10 ^ 5)). { rewrite Rabs_mult. unfold Rdiv at 1. rewrite Rabs_mult, (Rabs_pos_eq (/ 2)) by lra. apply Rmult_le_compat_l; [lra|exact NV]. }
    assert (H2 : Rabs (g / 2 * v * d' + e') <= Rabs g * (/ 10 ^ 6)).
    { eapply Rle_trans; [apply Rabs_triang|]. rewrite Rabs_mult. assert (Rabs (g / 2 * v) * Rabs d' <= 4 * Rabs g * u53) by (apply Rmult_le_compat; auto; apply Rabs_pos).
      assert (eta64 <= Rabs g * / 10 ^ 7).
      { unfold eta64. apply Rle_trans with (bpow radix2 (-100) * bpow radix2 (-24)); [|apply Rmult_le_compat; [apply bpow_ge_0|apply bpow_ge_0|exact (proj1 G1)|change (bpow radix2 (-24)) with (/ 16777216); lra]].
        rewrite <- bpow_plus. apply Rle_trans with (bpow radix2 (-1074)); [pose proof (bpow_gt_0 radix2 (-1074)); lra|apply bpow_le; lia]. }
      unfold u53 in *. lra. }
    lra.
  Qed.
  Lemma band pts k : nth_error pts k = Some (x, y, c) ->
    exists ux uy uz u, nth_error (vc_tang_u (N := FL) a ONE e pts) k = Some (ux, uy, uz) /\ is64 uz u /\ near (/ 10 ^ 4 * Rabs g) u (g / 2 * (T1 + Q0)).
  Proof using Hj A Gg X Y C E Hz GR GK.
    intros H. destruct (normal_nth FL a ONE e pts k (x, y, c) H normal) as (nm & i & PIv & N1 & N2 & N3). cbn [snd] in *. pose proof Rv as R0. set (r := vc_r (N := FL) (x, y, c)) in *. clearbody r.
    pose proof delta as [D _]. destruct (k2v r R0) as (kap & KV & NK). destruct S0_facts as (S5 & _ & _ & S4 & _). pose proof (proj1 (near_I _ _ _) NK) as NK'. pose proof O1 as O.
    assert (P1 : PIv = B754_infinity false).
    { assert (EK : vc_k2 (N := FL) e ONE r c = bfdiv (bfmul (bfmul (fme 4 0) r) ONE) (bfadd (bfmul (bfadd ONE r) (bfadd ONE r)) (bfmul c c))) by (unfold vc_k2; change (nZ FL 0) with (fme 0 0); rewrite eqe; reflexivity).
      assert (E0 : vc_k02 (N := FL) e ONE r c = bfdiv (bfmul (bfmul (fme 4 0) r) ONE) (bfmul (bfadd ONE r) (bfadd ONE r))) by (unfold vc_k02; change (nZ FL 0) with (fme 0 0); rewrite eqe; reflexivity).
      unfold vc_nm in N1. cbn [fst snd] in N1. rewrite EK, E0 in N1. set (kf := bfdiv _ (bfadd _ _)) in *. clearbody kf.
      assert (EC : clamp1 (N := FL) kf = kf). { unfold clamp1. assert (Q : nlt FL ONE kf = false) by (refine (eq_trans (lt64 _ _ _ _ O KV) _); apply Rlt_bool_false; lra). change (nZ FL 1) with ONE. rewrite Q. reflexivity. }
      rewrite EC in N1. assert (N : is64 (bfdiv (bfmul (bfmul (fme 4 0) r) ONE) (bfmul (bfadd ONE r) (bfadd ONE r))) 1).
      { assert (Q : 4 * rho_ / (4 * rho_) = 1) by (field; lra). pose proof (div64 _ _ _ _ (num4 r R0) (sq2 r R0) ltac:(lra) (b1000 (4 * rho_ / (4 * rho_)) ltac:(rewrite Q, Rabs_R1; lra))) as M. rewrite Q, (rnd_id 1 fmt1) in M. exact M. }
      pose proof (Pi_at_one L nm i _ kf kap GR N1 N KV ltac:(lra)) as Q. pose proof (eq_trans (eq_sym N2) Q) as Q'. injection Q' as ->. reflexivity. }
    destruct (reg r PIv R0 P1) as (u & U1 & U2). eexists _, _, _, u. split; [exact N3|]. split; [exact U1|exact U2].
  Qed.
  (** the exact velocity *)
  Lemma exact_near : near (/ 10 ^ 6 * Rabs g) (Cz g 1 rho_ z) (g / 2 * (1 / 2 + Q0) + (if Rlt_dec rho_ 1 then 1 else -1) * (g / 4) * (1 + z / Rabs z)).
  Proof using Hj Hz.
    pose proof delta as [D Dn]. pose proof zz as Z2. assert (Nz : z <> 0) by (intros Q; rewrite Q, Rabs_R0 in Hz; lra).
    pose proof (Cz_jump 1 rho_ z ltac:(lra) ltac:(lra) Nz Dn g) as J.
    assert (E1 : Cz g 1 1 z = g / 2 * (1 / 2 + Q0)). { unfold Cz, CzP. destruct (Req_EM_T 1 1) as [_|Q]; [|lra]. unfold Q0. replace (a2 1 1 z) with (4 + z * z) by (unfold a2; ring). replace (mm 1 1 z) with (4 / (4 + z * z)) by (unfold mm, a2; field; lra). reflexivity. }
    rewrite E1 in J. unfold near. eapply Rle_trans; [exact J|]. pose proof (Rabs_pos g) as Pg.
    assert (DD : 0 <= Rabs (rho_ - 1) <= / 67108864) by (split; [apply Rabs_pos|apply Rabs_le; lra]). set (d := Rabs (rho_ - 1)) in *.
    assert (K : 3 * d * (2 * 1 + d) / (8 * (z * z)) <= / 10 ^ 6).
    { apply Rle_trans with (3 * d * (2 * 1 + d) * / 8); [apply Rmult_le_compat_l; [nra|]; apply Rinv_le_contravar; lra|]. nra. }
    unfold Rdiv in *. rewrite Rmult_assoc, (Rmult_comm (/ _)). apply Rmult_le_compat_l; [lra|]. exact K.
  Qed.
End Sheet.
(** ** Theorems *)
(** Point k of the array at (1 + j 2^-51, 0, z), within 2^-26 of the sheet r = 1 of a cylinder of radius 1 (the default), one to eight radii upstream or downstream of the rotor *)
Definition sheet_point (a e x y c : F) (g : R) (j : Z) (z : R) : Prop :=
  is64 a g /\ rg 100 g /\ is64 e 0 /\ is64 x (1 + IZR j * bpow radix2 (-51)) /\ is64 y 0 /\ is64 c z /\ (j <> 0 /\ Z.abs j < 2 ^ 25)%Z /\ 1 <= Rabs z <= 8.
(** The computed axial velocity is a quarter of gamma_t away from the velocity induced by the sheet (Biot-Savart): too small by gamma_t/4 inside downstream and outside upstream, too large by as much
    inside upstream and outside downstream. The other points of the array do not matter. *)
(** The computed axial velocity is a quarter of gamma_t away from the velocity induced by the sheet (Biot-Savart): too small by gamma_t/4 inside downstream and outside upstream, too large by as much
    inside upstream and outside downstream. The other points of the array do not matter. *)
Theorem C136_sheet_band : forall L : mlib, good_rsqrt L -> good_ellipk L -> forall (a e x y c : F) g j z pts k (V : R3), sheet_point a e x y c g j z -> nth_error pts k = Some (x, y, c) ->
  sheet_velocity g 1 0 (1 + IZR j * bpow radix2 (-51), 0, z) V ->
  exists ux uy uz u, nth_error (vc_tang_u (N := FN L) a (fme 1 0) e pts) k = Some (ux, uy, uz) /\ is64 uz u /\
    Rabs (u - (pz V + (if Rlt_dec 0 (IZR j * z) then 1 else -1) * (g / 4))) <= 2 / 10 ^ 4 * Rabs g.
Proof.
  intros L GR GK a e x y c g j z pts k V (A & Gg & E & X & Y & C & Hj & Hz) H HV.
  destruct (delta j Hj) as [D Dn]. destruct (band L a x y c e g z j Hj A Gg X Y C E Hz GR GK pts k H) as (ux & uy & uz & u & U1 & U2 & U3).
  pose proof (exact_near g z j Hj Hz) as EX. set (q := _ * Kell _) in *. clearbody q. set (rh := 1 + IZR j * bpow radix2 (-51)) in *.
  assert (EV : pz V = Cz g 1 rh z).
  { assert (K : sheet_velocity g 1 0 (rh * cos 0, rh * sin 0, z) (Cr g 1 rh z * cos 0, Cr g 1 rh z * sin 0, Cz g 1 rh z)).
    { apply straight_sheet; try lra. intros th s Hs Q. injection Q as Q1 Q2 _. rewrite cos_0, sin_0 in *. pose proof (sin2_cos2 th) as SC. unfold Rsqr in SC. apply Dn. nra. }
    rewrite cos_0, sin_0, !Rmult_1_r, !Rmult_0_r in K. rewrite (sheet_unique _ _ _ _ _ _ HV K). reflexivity. }
  rewrite <- EV in EX. exists ux, uy, uz, u. split; [exact U1|]. split; [exact U2|].
  assert (Nz : z <> 0) by (intros Q; rewrite Q, Rabs_R0 in Hz; lra). assert (Jr : IZR j <> 0) by (apply not_0_IZR; apply Hj).
  assert (RJ : rh < 1 <-> IZR j < 0). { pose proof (bpow_gt_0 radix2 (-51)). unfold rh. split; intros W; nra. }
  apply near_I in U3, EX. apply Rabs_le. pose proof (Rabs_pos g) as Pg.
  assert (SJ : IZR j < 0 \/ 0 < IZR j) by lra. assert (SZ : z < 0 \/ 0 < z) by lra. clear - U3 EX RJ SJ SZ Pg.
  assert (FZ : z / Rabs z = if Rlt_dec z 0 then -1 else 1) by (destruct (Rlt_dec z 0); [rewrite Rabs_left by lra|rewrite Rabs_pos_eq by lra]; field; lra). rewrite FZ in EX. clear FZ.
  destruct (Rlt_dec rh 1) as [R1|R1]; destruct (Rlt_dec z 0) as [Z1|Z1]; destruct (Rlt_dec 0 (IZR j * z)) as [W|W]; try lra; exfalso.
  - apply RJ in R1. nra.
  - apply RJ in R1. nra.
  - assert (0 < IZR j) by (destruct SJ; tauto). nra.
  - assert (0 < IZR j) by (destruct SJ; tauto). nra.
Qed.
(** Accuracy claim: at every point off the sheet the computed axial velocity is within gamma_t/5 of the Biot-Savart velocity *)
Definition C136_accurate (L : mlib) : Prop := forall (a b e x y c : F) g Ra xr z pts k (V : R3), is64 a g -> is64 b Ra -> is64 e 0 -> is64 x xr -> is64 y 0 -> is64 c z ->
  0 < Ra <= 1 -> / 2 <= xr <= 2 -> xr <> Ra -> 1 <= Rabs z <= 8 -> / 2 <= Rabs g <= 1 -> nth_error pts k = Some (x, y, c) -> sheet_velocity g Ra 0 (xr, 0, z) V ->
  exists ux uy uz u, nth_error (vc_tang_u (N := FN L) a b e pts) k = Some (ux, uy, uz) /\ is64 uz u /\ Rabs (u - pz V) <= / 5 * Rabs g.
(** a point one ulp outside the sheet, two radii upstream of the rotor *)
Lemma sheet_nonvacuous : exists a e x c, sheet_point a e x (fme 0 0) c (-1) 1 (-2) /\ exists V, sheet_velocity (-1) 1 0 (1 + IZR 1 * bpow radix2 (-51), 0, -2) V.
Proof.
  exists (fme (-1) 0), (fme 0 0), (fme (2 ^ 51 + 1) (-51)), (fme (-2) 0).
  assert (Hj : (1 <> 0 /\ Z.abs 1 < 2 ^ 25)%Z) by (split; [discriminate|reflexivity]). destruct (delta 1 Hj) as [D Dn]. split.
  - split; [apply Z64; reflexivity|]. split. { apply (rg_I _ _ 1 1); [rewrite Rabs_left by lra; lra| |]; change 1 with (bpow radix2 0); apply bpow_le; lia. }
    split; [apply Z64; reflexivity|]. split. { replace (1 + IZR 1 * bpow radix2 (-51)) with (IZR (2 ^ 51 + 1) * bpow radix2 (-51)); [apply me64; [reflexivity|lia]|]. rewrite b51, plus_IZR. change (IZR (2 ^ 51)) with 2251799813685248. field. }
    split; [apply Z64; reflexivity|]. split; [apply Z64; reflexivity|]. split; [exact Hj|]. rewrite Rabs_left; lra.
  - set (rh := 1 + _) in *. exists (Cr (-1) 1 rh (-2) * cos 0, Cr (-1) 1 rh (-2) * sin 0, Cz (-1) 1 rh (-2)). replace (rh, 0, -2) with (rh * cos 0, rh * sin 0, -2) by (rewrite cos_0, sin_0; f_equal; f_equal; ring).
    apply straight_sheet; try lra. intros th s Hs Q. injection Q as Q1 Q2 Q3. lra.
Qed.
Theorem C136_refuted : forall L : mlib, good_rsqrt L -> good_ellipk L -> ~ C136_accurate L.
Proof.
  intros L GR GK HA. destruct sheet_nonvacuous as (a & e & x & c & P & (V & HV)). pose proof P as (A & Gg & E & X & Y & C & Hj & Hz). set (pts := [(x, fme 0 0, c)]).
  destruct (C136_sheet_band L GR GK a e x (fme 0 0) c _ _ _ pts 0%nat V P eq_refl HV) as (ux & uy & uz & u & U1 & U2 & U3).
  destruct (delta 1 Hj) as [D Dn].
  destruct (HA a (fme 1 0) e x (fme 0 0) c (-1) 1 _ (-2) pts 0%nat V A (Z64 1 ltac:(reflexivity)) E X Y C ltac:(lra) ltac:(lra) Dn ltac:(rewrite Rabs_left; lra) ltac:(rewrite Rabs_left; lra) eq_refl HV) as (ux' & uy' & uz' & u' & W1 & W2 & W3).
  rewrite U1 in W1. injection W1 as <- <- <-. rewrite <- (is64_fun _ _ _ U2 W2) in W3. rewrite (Rabs_left (-1)) in U3, W3 by lra. apply Rabs_le_inv in U3, W3. destruct (Rlt_dec 0 (1 * -2)); lra.
Qed.
(** ** A library with correctly rounded functions meets the hypotheses *)
Definition rsqrt64 (a b : F) : F := fl_of (/ sqrt (B2R a)).
Definition ellipk64 (a : F) : F := fl_of (Kell (B2R a)).
Definition lib_ell (cs sn : F -> F) : mlib := {| l_pow := rsqrt64; l_exp := fun _ => fnan; l_log := fun _ => fnan; l_cosh := fun _ => fnan; l_cos := cs; l_sin := sn; l_tan := fun _ => fnan;
  l_atan := fun _ => fnan; l_acos := acos64; l_atan2 := fun _ _ => fnan; l_ellipk := ellipk64; l_ellipe := fun _ => fnan |}.
Lemma lib_ell_good cs sn : good_rsqrt (lib_ell cs sn) /\ good_ellipk (lib_ell cs sn).
Proof.
  split.
  - intros a x [_ <-] H. cbn [l_pow lib_ell]. unfold rsqrt64. set (v := B2R a) in *. pose proof (bpow_gt_0 radix2 (-60)) as B0.
    assert (SQ : bpow radix2 (-30) <= sqrt v <= 1). { split; [rewrite <- (sqrt_square (bpow radix2 (-30))) by apply bpow_ge_0; apply sqrt_le_1_alt; rewrite <- bpow_plus; exact (proj1 H)|rewrite <- sqrt_1; apply sqrt_le_1_alt; lra]. }
    pose proof (bpow_gt_0 radix2 (-30)) as B1. assert (I : 1 <= / sqrt v <= bpow radix2 30). { split; [rewrite <- Rinv_1; apply Rinv_le_contravar; lra|]. change 30%Z with (- (-30))%Z. rewrite bpow_opp. apply Rinv_le_contravar; lra. }
    assert (G : rg 30 (/ sqrt v)). { right. rewrite Rabs_pos_eq by lra. split; [|lra]. apply Rle_trans with 1; [|lra]. change 1 with (bpow radix2 0). apply bpow_le; lia. }
    exists (rnd (/ sqrt v)). split; [apply fl_of_is; exact (proj2 (rg_rel 30 _ ltac:(lia) G))|].
    destruct (rnd_ex (/ sqrt v)) as (d & e & Dd & Ee & ->). replace (/ sqrt v * (1 + d) + e - / sqrt v) with (/ sqrt v * d + e) by ring. eapply Rle_trans; [apply Rabs_triang|]. rewrite Rabs_mult, (Rabs_pos_eq (/ sqrt v)) by lra.
    pose proof eta_small. assert (/ sqrt v * Rabs d <= / sqrt v * u53) by (apply Rmult_le_compat_l; lra). unfold u53 in *. lra.
  - intros a m [_ <-] H. cbn [l_ellipk lib_ell]. unfold ellipk64. destruct (Kell_bounds _ H) as [K1 K2]. exists (rnd (Kell (B2R a))). split; [apply fl_of_is, b1000; rewrite Rabs_pos_eq; lra|].
    eapply Rle_trans; [apply rnd_abs; rewrite Rabs_pos_eq; lra|lra].
Qed.
