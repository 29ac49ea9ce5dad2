(** * From the thrust coefficient to the velocity on the rotor axis in binary64 arithmetic: C137 *)
From Coquelicot Require Import Coquelicot.
From Coq Require Import Reals ZArith Lra Lia List Bool String.
From Flocq Require Import Core BinarySingleNaN.
From Verif Require Import Num NumR NumF M_Elliptic M_Cylinder M_Solver M_Turbine L_List L_Ell L_Turbine P_FloatYaw P_FloatAxis P_FloatSheet.
Import ListNotations.
Local Open Scope R_scope.
Local Notation len := List.length.

Lemma bern n : (1 - u53) ^ n >= 1 - INR n * u53.
Proof.
  assert (U : 0 < u53 < 1) by (unfold u53; lra). induction n as [|n IH]; [cbn; lra|]. rewrite S_INR. cbn [pow]. pose proof (pos_INR n). assert ((1 - u53) * (1 - u53) ^ n >= (1 - u53) * (1 - INR n * u53)) by (apply Rle_ge, Rmult_le_compat_l; lra). nra.
Qed.
Lemma w53_30 n : (n <= 30)%nat -> w53 ^ n - 1 <= (INR n + 1) * u53.
Proof.
  intros H. pose proof (bern n) as B. assert (Hn : 0 <= INR n <= 30) by (split; [apply pos_INR|replace 30 with (INR 30) by (cbn; lra); apply le_INR; auto]). unfold w53. rewrite pow_inv.
  assert (D : 0 < 1 - INR n * u53) by (unfold u53; lra). assert (I : / (1 - u53) ^ n <= / (1 - INR n * u53)) by (apply Rinv_le_contravar; lra).
  assert (J : / (1 - INR n * u53) <= 1 + (INR n + 1) * u53). { apply Rmult_le_reg_r with (1 - INR n * u53); [lra|]. rewrite Rinv_l by lra. unfold u53. nra. }
  lra.
Qed.
Lemma fac_near n t x e : (n <= 30)%nat -> fac n t -> Rabs x * ((INR n + 1) * u53) <= e -> near e (x * t) x.
Proof.
  intros H F E. pose proof (fac_err n t F) as D. pose proof (w53_30 n H). unfold near. replace (x * t - x) with (x * (t - 1)) by ring. rewrite Rabs_mult. eapply Rle_trans; [|exact E]. apply Rmult_le_compat_l; [apply Rabs_pos|lra].
Qed.
Lemma rnd_err2 x : Rabs x <= 2 -> near (4 * u53) (rnd x) x.
Proof.
  intros H. unfold near. destruct (rnd_ex x) as (d & e & D & E & ->). replace (x * (1 + d) + e - x) with (x * d + e) by ring. eapply Rle_trans; [apply Rabs_triang|]. rewrite Rabs_mult.
  assert (eta64 <= u53). { unfold eta64. apply Rle_trans with (bpow radix2 (-1074)); [pose proof (bpow_gt_0 radix2 (-1074)); lra|]. apply Rle_trans with (bpow radix2 (-53)); [apply bpow_le; lia|]. change (bpow radix2 (-53)) with (/ 9007199254740992). unfold u53. lra. }
  assert (Rabs x * Rabs d <= 2 * u53) by (apply Rmult_le_compat; auto; apply Rabs_pos). unfold u53 in *. lra.
Qed.
Lemma near_trans e f x y z : near e x y -> near f y z -> near (e + f) x z.
Proof. rewrite !near_I. lra. Qed.
Lemma near_rnd2 e e' x y : near e x y -> Rabs x <= 2 -> e + 4 * u53 <= e' -> near e' (rnd x) y.
Proof. intros A B C. pose proof (rnd_err2 x B) as D. rewrite near_I in *. lra. Qed.
Lemma small2 x : Rabs x <= 2 -> Rabs x <= big.
Proof. intros H. apply small_big. lra. Qed.
Lemma rg_pos k x : bpow radix2 (- k) <= x <= bpow radix2 k -> rg k x.
Proof. intros H. right. pose proof (bpow_gt_0 radix2 (- k)). rewrite Rabs_pos_eq; lra. Qed.

(** ** The vortex intensity of a turbine with one cylinder and infinite tip-speed ratio *)
Section Gamma.
  Context (L : mlib) (minim : (F -> F) -> F -> F -> F).
  Notation FL := (FN L).
  Variables (c b u r0 : F) (Ct Ra U rr : R).
  Hypothesis HC : is64 c Ct.
  Hypothesis HB : is64 b Ra.
  Hypothesis HU : is64 u U.
  Hypothesis HR0 : is64 r0 rr.
  Hypothesis BC : bpow radix2 (-20) <= Ct <= 89 / 100.
  Hypothesis BR : bpow radix2 (-20) <= Ra <= bpow radix2 20.
  Hypothesis BU : bpow radix2 (-20) <= U <= bpow radix2 20.
  Hypothesis BL : 21 <= 800 * Ra / U.
  Hypothesis Brr : rr <= Ra.
  Let p : R := IZR 884279719003555 * / 281474976710656.
  Let ap : R := Ct * (U * U) / (16 * p * (800 * 800 * 800) * (Ra * Ra)).
  Definition W800 : F := fme 800 0.
  Lemma p_facts : is64 PIF p /\ 3.14159 < p < 3.1416 /\ rg 2 p.
  Proof.
    split; [apply me64; [reflexivity|lia]|]. assert (P : 3.14159 < p < 3.1416) by (unfold p; lra). split; [exact P|]. apply rg_pos. change (bpow radix2 (- (2))) with (/ 4). change (bpow radix2 2) with 4. lra.
  Qed.
  Lemma rgs : rg 20 Ct /\ rg 20 Ra /\ rg 20 U /\ rg 10 800 /\ 0 < Ct /\ 0 < Ra /\ 0 < U.
  Proof using BC BR BU.
    pose proof (bpow_gt_0 radix2 (-20)). repeat split; try lra; apply rg_pos; try (change (- (20))%Z with (-20)%Z; auto; lra).
    - change (- (20))%Z with (-20)%Z. split; [lra|]. change (bpow radix2 20) with 1048576. lra.
    - change (bpow radix2 (- (10))) with (/ 1024). change (bpow radix2 10) with 1024. lra.
  Qed.
  Lemma h800 : is64 W800 800. Proof. apply (Z64 800). reflexivity. Qed.
  (** U0**2, pi*U0**2 *)
  Lemma u2 : exists t, fac 1 t /\ is64 (bfmul u u) (U * U * t).
  Proof using HU BC BR BU. destruct rgs as (G1 & G2 & G3 & _). apply (mul_rel 40); auto; [lia|]. apply (rg_mul 20 20); auto. Qed.
  (** the circulation *)
  Lemma circ : exists t, fac 4 t /\ is64 (bfdiv (bfmul (bfmul c PIF) (bfmul u u)) W800) (Ct * p * (U * U) / 800 * t).
  Proof using HC HU BC BR BU.
    destruct rgs as (G1 & G2 & G3 & G8 & C0 & R0 & U0). destruct p_facts as (HP & Pp & Gp). destruct u2 as (t1 & T1 & M1).
    destruct (mul_rel 22 _ _ _ _ ltac:(lia) HC HP (rg_mul 20 2 _ _ G1 Gp)) as (t2 & T2 & M2).
    assert (G : rg 64 (Ct * p * t2 * (U * U * t1))). { apply (rg_mul 23 41); [apply (rg_fac 1 22); [lia| |auto]; apply (rg_mul 20 2); auto|apply (rg_fac 1 40); [lia| |auto]; apply (rg_mul 20 20); auto]. }
    destruct (mul_rel 64 _ _ _ _ ltac:(lia) M2 M1 G) as (t3 & T3 & M3).
    assert (G' : rg 75 (Ct * p * t2 * (U * U * t1) * t3 / 800)). { apply (rg_mul 65 10); [apply (rg_fac 1 64); [lia|auto|auto]|]. apply rg_inv; [lra|auto]. }
    destruct (div_rel 75 _ _ _ _ ltac:(lia) M3 h800 ltac:(lra) G') as (t4 & T4 & M4).
    exists (t2 * t1 * t3 * t4). split; [apply (fac_mul 3 1); auto; apply (fac_mul 2 1); auto; apply (fac_mul 1 1); auto|].
    replace (Ct * p * (U * U) / 800 * (t2 * t1 * t3 * t4)) with (Ct * p * t2 * (U * U * t1) * t3 / 800 * t4) by field. exact M4.
  Qed.
  Lemma rgG t : fac 4 t -> rg 75 (Ct * p * (U * U) / 800 * t).
  Proof using BC BR BU.
    intros T. destruct rgs as (G1 & G2 & G3 & G8 & _). destruct p_facts as (_ & _ & Gp). apply (rg_fac 4 74); auto; [lia|].
    apply (rg_le 72); [lia|]. apply (rg_mul 62 10); [apply (rg_mul 22 40); [apply (rg_mul 20 2); auto|apply (rg_mul 20 20); auto]|apply rg_inv; [lra|auto]].
  Qed.
  (** the circulation coefficient *)
  Lemma kval (G : F) : (exists t, fac 4 t /\ is64 G (Ct * p * (U * U) / 800 * t)) -> exists t, fac 8 t /\ is64 (bfdiv (bfmul G W800) (bfmul PIF (bfmul u u))) (Ct * t).
  Proof using HU BC BR BU.
    intros (t1 & T1 & M1). destruct rgs as (G1 & G2 & G3 & G8 & C0 & R0 & U0). destruct p_facts as (HP & Pp & Gp). destruct u2 as (t2 & T2 & M2).
    destruct (mul_rel 85 _ _ _ _ ltac:(lia) M1 h800 (rg_mul 75 10 _ _ (rgG t1 T1) G8)) as (t3 & T3 & M3).
    destruct (mul_rel 43 _ _ _ _ ltac:(lia) HP M2 (rg_mul 2 41 _ _ Gp (rg_fac 1 40 _ _ ltac:(lia) (rg_mul 20 20 _ _ G3 G3) T2))) as (t4 & T4 & M4).
    pose proof (fac_pos _ _ T2). pose proof (fac_pos _ _ T4). assert (0 < U * U) by nra.
    assert (E : Ct * p * (U * U) / 800 * t1 * 800 * t3 / (p * (U * U * t2) * t4) = Ct * (t1 * t3 / (t2 * t4))) by (field; repeat split; lra).
    assert (FF : fac 7 (t1 * t3 / (t2 * t4))) by (apply (fac_div 5 2); [apply (fac_mul 4 1)|apply (fac_mul 1 1)]; auto).
    assert (GK : rg 21 (Ct * (t1 * t3 / (t2 * t4)))) by (apply (rg_fac 7 20); [lia|auto|auto]).
    rewrite <- E in GK. destruct (div_rel 21 _ _ _ _ ltac:(lia) M3 M4 ltac:(repeat apply Rmult_integral_contrapositive_currified; lra) GK) as (t5 & T5 & M5).
    exists (t1 * t3 / (t2 * t4) * t5). split; [apply (fac_mul 7 1); auto|]. rewrite E in M5. rewrite <- Rmult_assoc. exact M5.
  Qed.
  (** the tangential convection term *)
  Lemma apval (G : F) : (exists t, fac 4 t /\ is64 G (Ct * p * (U * U) / 800 * t)) ->
    exists t, fac 12 t /\ is64 (bfdiv G (bfmul (bfmul (bfmul (bfmul (fme 4 0) PIF) W800) b) (bfmul (bfmul (bfmul (fme 4 0) PIF) W800) b))) (ap * t).
  Proof using HB BC BR BU.
    intros (t1 & T1 & M1). destruct rgs as (G1 & G2 & G3 & G8 & C0 & R0 & U0). destruct p_facts as (HP & Pp & Gp).
    assert (G4 : rg 2 4) by (apply rg_pos; change (bpow radix2 (- (2))) with (/ 4); change (bpow radix2 2) with 4; lra).
    destruct (mul_rel 4 _ _ _ _ ltac:(lia) (Z64 4 ltac:(reflexivity)) HP (rg_mul 2 2 _ _ G4 Gp)) as (t2 & T2 & M2).
    destruct (mul_rel 15 _ _ _ _ ltac:(lia) M2 h800 (rg_mul 5 10 _ _ (rg_fac 1 4 _ _ ltac:(lia) (rg_mul 2 2 _ _ G4 Gp) T2) G8)) as (t3 & T3 & M3).
    assert (H3 : rg 16 (4 * p * t2 * 800 * t3)) by (apply (rg_fac 1 15); auto; [lia|]; apply (rg_mul 5 10); auto; apply (rg_fac 1 4); auto; [lia|]; apply (rg_mul 2 2); auto).
    destruct (mul_rel 36 _ _ _ _ ltac:(lia) M3 HB (rg_mul 16 20 _ _ H3 G2)) as (t4 & T4 & M4).
    assert (H4 : rg 37 (4 * p * t2 * 800 * t3 * Ra * t4)) by (apply (rg_fac 1 36); auto; [lia|]; apply (rg_mul 16 20); auto).
    destruct (mul_rel 74 _ _ _ _ ltac:(lia) M4 M4 (rg_mul 37 37 _ _ H4 H4)) as (t5 & T5 & M5).
    assert (H5 : rg 75 (4 * p * t2 * 800 * t3 * Ra * t4 * (4 * p * t2 * 800 * t3 * Ra * t4) * t5)) by (apply (rg_fac 1 74); auto; [lia|]; apply (rg_mul 37 37); auto).
    pose proof (fac_pos _ _ T2). pose proof (fac_pos _ _ T3). pose proof (fac_pos _ _ T4). pose proof (fac_pos _ _ T5).
    assert (P : 4 * p * t2 * 800 * t3 * Ra * t4 * (4 * p * t2 * 800 * t3 * Ra * t4) * t5 <> 0) by (repeat apply Rmult_integral_contrapositive_currified; lra).
    destruct (div_rel 150 _ _ _ _ ltac:(lia) M1 M5 P (rg_mul 75 75 _ _ (rgG t1 T1) (rg_inv _ _ P H5))) as (t6 & T6 & M6).
    exists (t1 / (t2 * t3 * t4 * (t2 * t3 * t4) * t5) * t6). split.
    - apply (fac_mul 11 1); auto. apply (fac_div 4 7); auto. apply (fac_mul 6 1); auto. apply (fac_mul 3 3); (apply (fac_mul 2 1); auto; apply (fac_mul 1 1); auto).
    - match type of M6 with is64 _ ?x => replace x with (ap * (t1 / (t2 * t3 * t4 * (t2 * t3 * t4) * t5) * t6)) in M6 by (unfold ap; field; repeat split; lra) end. exact M6.
  Qed.
  Lemma ap_small : 0 <= ap <= / (40000 * (800 * Ra / U) ^ 2) /\ ap <= / 10 ^ 7.
  Proof using BC BR BU BL.
    destruct rgs as (G1 & G2 & G3 & G8 & C0 & R0 & U0). destruct p_facts as (_ & Pp & _). set (lam := 800 * Ra / U) in *. assert (ER : Ra = lam * U / 800) by (unfold lam; field; lra).
    assert (E : ap = Ct / (16 * p * 800) * / lam ^ 2). { unfold ap. rewrite ER. field. repeat split; lra. }
    assert (B : 0 <= Ct / (16 * p * 800) <= / 40000). { split; [apply Rlt_le, Rdiv_lt_0_compat; lra|]. apply Rmult_le_reg_r with (16 * p * 800); [lra|]. unfold Rdiv. rewrite Rmult_assoc, Rinv_l by lra. lra. }
    assert (LL : 441 <= lam ^ 2) by nra. assert (I : 0 < / lam ^ 2 <= / 441) by (split; [apply Rinv_0_lt_compat|apply Rinv_le_contravar]; lra).
    rewrite E. split; [split|].
    - apply Rmult_le_pos; lra.
    - rewrite Rinv_mult. apply Rmult_le_compat_r; lra.
    - apply Rle_trans with (/ 40000 * / 441); [apply Rmult_le_compat; lra|lra].
  Qed.
  Lemma mom64 : exists s, sqrt (1 - Ct) = s /\ s * s = 1 - Ct /\ 33 / 100 <= s /\ s <= 1 - / 2097152.
  Proof using BC.
    exists (sqrt (1 - Ct)). split; [reflexivity|]. change (bpow radix2 (-20)) with (/ 1048576) in BC. split; [apply sqrt_sqrt; lra|]. split.
    - rewrite <- (sqrt_square (33 / 100)) by lra. apply sqrt_le_1_alt; lra.
    - rewrite <- (sqrt_square (1 - / 2097152)) by lra. apply sqrt_le_1_alt; lra.
  Qed.
  (** k (1 + a') *)
  Lemma cval (k a : F) t t' : fac 8 t -> fac 12 t' -> is64 k (Ct * t) -> is64 a (ap * t') ->
    exists C, is64 (bfmul k (bfadd (fme 1 0) a)) C /\ near (17 * u53 + 101 / 100 * ap) C Ct.
  Proof using BC BR BU BL.
    intros T T' K A. destruct ap_small as ((P1 & _) & P2). pose proof (fac_near 8 t Ct (9 * u53) ltac:(lia) T) as N1. pose proof (fac_near 12 t' ap (ap * / 100) ltac:(lia) T') as N2.
    destruct rgs as (_ & _ & _ & _ & C0 & _). rewrite Rabs_pos_eq in N1, N2 by lra.
    assert (N1' : near (9 * u53) (Ct * t) Ct) by (apply N1; cbn [INR]; unfold u53; lra). clear N1.
    assert (N2' : near (ap * / 100) (ap * t') ap) by (apply N2; apply Rmult_le_compat_l; [lra|cbn [INR]; unfold u53; lra]). clear N2.
    rewrite near_I in N1', N2'. set (kv := Ct * t) in *. set (av := ap * t') in *.
    assert (U0 : u53 = / 9007199254740992) by reflexivity.
    assert (B1 : Rabs (1 + av) <= 2) by (apply Rabs_le; lra).
    pose proof (add64 _ _ _ _ (Z64 1 ltac:(reflexivity)) A (small2 _ B1)) as M1.
    pose proof (rnd_err2 _ B1) as N3. rewrite near_I in N3. set (v := rnd (1 + av)) in *.
    assert (KV : Rabs (kv * (v - 1)) <= 1 * (av + 4 * u53)). { rewrite Rabs_mult. apply Rmult_le_compat; try apply Rabs_pos; apply Rabs_le; lra. }
    apply Rabs_le_inv in KV. replace (kv * (v - 1)) with (kv * v - kv) in KV by ring.
    assert (B2 : Rabs (kv * v) <= 2) by (apply Rabs_le; lra).
    pose proof (mul64 _ _ _ _ K M1 (small2 _ B2)) as M2. pose proof (rnd_err2 _ B2) as N4. rewrite near_I in N4.
    eexists. split; [exact M2|]. rewrite near_I. lra.
  Qed.
  Lemma gval (m : F) C : is64 m C -> near (17 * u53 + 101 / 100 * ap) C Ct ->
    exists g, is64 (bfadd (Bopp (fme 1 0)) (bfsqrt (bfsub (fme 1 0) m))) g /\ near (43 * u53 + 165 / 100 * ap) g (- (1 - sqrt (1 - Ct))) /\ / 4194304 <= - g <= 1.
  Proof using BC BR BU BL.
    intros M N1. destruct ap_small as ((P1 & _) & P2). destruct mom64 as (s & -> & S2 & S3 & S4). change (bpow radix2 (-20)) with (/ 1048576) in BC.
    rewrite near_I in N1. assert (U0 : u53 = / 9007199254740992) by reflexivity.
    assert (B1 : Rabs (1 - C) <= 2) by (apply Rabs_le; lra). pose proof (sub64 _ _ _ _ (Z64 1 ltac:(reflexivity)) M (small2 _ B1)) as M1.
    pose proof (rnd_err2 _ B1) as N2. rewrite near_I in N2. set (S := rnd (1 - C)) in *.
    pose proof (sqrt64 _ _ M1 ltac:(lra)) as M2. set (q := sqrt S) in *.
    assert (Q0 : 0 <= q) by apply sqrt_pos. assert (Q2 : q * q = S) by (apply sqrt_sqrt; lra).
    assert (Q3 : 33 / 100 <= q) by (unfold q; rewrite <- (sqrt_square (33 / 100)) by lra; apply sqrt_le_1_alt; lra).
    assert (E : (q - s) * (q + s) = S - (1 - Ct)) by lra.
    assert (N3 : near (163 / 100 * (21 * u53 + 101 / 100 * ap)) q s).
    { unfold near. replace (q - s) with ((S - (1 - Ct)) * / (q + s)) by (rewrite <- E; field; lra). rewrite Rabs_mult. rewrite Rmult_comm. apply Rmult_le_compat; try apply Rabs_pos.
      - rewrite Rabs_pos_eq; [|left; apply Rinv_0_lt_compat; lra]. apply Rle_trans with (/ (66 / 100)); [apply Rinv_le_contravar; lra|lra].
      - apply Rabs_le; lra. }
    rewrite near_I in N3. assert (B2 : Rabs q <= 2) by (apply Rabs_le; lra). pose proof (rnd_err2 _ B2) as N4. rewrite near_I in N4.
    pose proof (opp64 _ _ (Z64 1 ltac:(reflexivity))) as O.
    assert (B3 : Rabs (- (1) + rnd q) <= 2) by (apply Rabs_le; lra). pose proof (add64 _ _ _ _ O M2 (small2 _ B3)) as M3.
    pose proof (rnd_err2 _ B3) as N5. rewrite near_I in N5. change (IZR 1) with 1 in M3. eexists. split; [exact M3|]. split; [rewrite near_I; lra|]. lra.
  Qed.
  Lemma tsr64 : nlt FL (bfdiv (bfmul W800 b) u) (nZ FL 20) = false.
  Proof using HB HU BC BR BU BL.
    destruct rgs as (G1 & G2 & G3 & G8 & C0 & R0 & U0). destruct (mul_rel 30 _ _ _ _ ltac:(lia) h800 HB (rg_mul 10 20 _ _ G8 G2)) as (t1 & T1 & M1).
    destruct (div_rel 51 _ _ _ _ ltac:(lia) M1 HU ltac:(lra) (rg_mul 31 20 _ _ (rg_fac 1 30 _ _ ltac:(lia) (rg_mul 10 20 _ _ G8 G2) T1) (rg_inv 20 U ltac:(lra) G3))) as (t2 & T2 & M2).
    refine (eq_trans (lt64 _ _ _ _ M2 (Z64 20 ltac:(reflexivity))) _). apply Rlt_bool_false.
    replace (800 * Ra * t1 / U * t2) with (800 * Ra / U * (t1 * t2)) by (field; lra).
    pose proof (fac_near 2 (t1 * t2) 1 (/ 100) ltac:(lia) (fac_mul 1 1 _ _ T1 T2)) as Nt. rewrite Rabs_R1, near_I, Rmult_1_l in Nt. specialize (Nt ltac:(cbn [INR]; unfold u53; lra)).
    apply Rle_trans with (21 * (t1 * t2)); [lra|]. apply Rmult_le_compat_r; lra.
  Qed.
  Definition ctc64 : F := bfmul (bfmul (fme 4 0) (bfdiv (fme 34 0) (fme 100 0))) (bfsub (fme 1 0) (bfdiv (fme 34 0) (fme 100 0))).
  Lemma ctc : exists x, is64 ctc64 x /\ 895 / 1000 <= x <= 9 / 10.
  Proof.
    eexists. split; [apply (sf_is _ false 8084862051055514 (-53)); vm_compute; reflexivity|]. cbn [cond_Zopp]. change (bpow radix2 (-53)) with (/ 9007199254740992). lra.
  Qed.
  (** the intensity of the tangential vorticity; there is no longitudinal vorticity and no root vortex *)
  Lemma gamma64 : exists w g gv, WakeVorticityFromCt (N := FL) minim [r0] [c] b u (ninf FL) = Ok w /\ w_gt w = [g] /\ w_gl w = None /\ w_Gr w = None /\
    is64 g gv /\ gv <> 0 /\ rg 43 gv /\ Rabs (gv + U * (1 - sqrt (1 - Ct))) <= U * (45 * u53 + 165 / 100 * ap).
  Proof using HC HB HU HR0 BC BR BU BL Brr.
    destruct rgs as (G1 & G2 & G3 & G8 & C0 & R0 & U0).
    destruct circ as (t1 & T1 & M1). pose proof (mul_r1 _ _ _ M1 (Z64 1 ltac:(reflexivity))) as M2. set (G := bfmul (bfdiv (bfmul (bfmul c PIF) (bfmul u u)) W800) (fme 1 0)) in *.
    destruct (kval G (ex_intro _ t1 (conj T1 M2))) as (t2 & T2 & K). destruct (apval G (ex_intro _ t1 (conj T1 M2))) as (t3 & T3 & A).
    set (kf := bfdiv (bfmul G W800) (bfmul PIF (bfmul u u))) in *. set (af := bfdiv G _) in A.
    destruct (cval kf af t2 t3 T2 T3 K A) as (C & MC & NC). destruct (gval _ C MC NC) as (g & Mg & Ng & Bg).
    set (gf := bfadd (Bopp (fme 1 0)) (bfsqrt (bfsub (fme 1 0) (bfmul kf (bfadd (fme 1 0) af))))) in *.
    assert (Gg : rg 22 g). { right. rewrite Rabs_left by lra. change (bpow radix2 (- (22))) with (/ 4194304). change (bpow radix2 22) with 4194304. lra. }
    destruct (mul_rel 42 _ _ _ _ ltac:(lia) Mg HU (rg_mul 22 20 _ _ Gg G3)) as (t4 & T4 & M4).
    assert (HT : nlt FL ctc64 (nsub FL kf (nZ FL 0)) = false).
    { destruct ctc as (x & X1 & X2). refine (eq_trans (lt64 _ _ _ _ X1 (sub_r0 _ _ _ K (Z64 0 ltac:(reflexivity)))) _). apply Rlt_bool_false.
      pose proof (fac_near 8 t2 Ct (/ 1000) ltac:(lia) T2) as N1. rewrite Rabs_pos_eq, near_I in N1 by lra. specialize (N1 ltac:(cbn [INR]; unfold u53; lra)). lra. }
    assert (HA : nlt FL b r0 = false) by (refine (eq_trans (lt64 _ _ _ _ HB HR0) _); apply Rlt_bool_false; lra).
    assert (HZ : neqb FL b (nZ FL 0) = false) by (refine (eq_trans (eq64 _ _ _ _ HB (Z64 0 ltac:(reflexivity))) _); apply Req_bool_false; lra).
    eexists. exists (bfmul gf u), (g * U * t4). split; [|split; [|split; [|split; [|split; [exact M4|split; [|split]]]]]].
    - unfold WakeVorticityFromCt. change (omega_fix (N := FL) (ninf FL)) with (W800 : FL). change (ndiv FL (nmul FL W800 b) u) with (bfdiv (bfmul W800 b) u). rewrite tsr64.
      cbn [CirculationFromPrescribedCt map]. unfold WakeVorticityFromCirculation_Discr. cbn [default_r_cyl amax fold_left].
      rewrite HA, HZ. reflexivity.
    - cbn [w_gt map map2 ap_conv dloop fold_right dstep dinit d_next d_gs d_rl d_bs d_ce fst snd andb].
      change (nlt FL (Ct_c (N := FL)) _) with (nlt FL ctc64 (nsub FL kf (nZ FL 0))). rewrite HT. reflexivity.
    - reflexivity.
    - reflexivity.
    - pose proof (fac_pos _ _ T4). apply Rmult_integral_contrapositive_currified; [apply Rmult_integral_contrapositive_currified|]; lra.
    - apply (rg_fac 1 42); [lia|apply (rg_mul 22 20); auto|auto].
    - pose proof (fac_near 1 t4 g (2 * u53) ltac:(lia) T4) as Nt. rewrite Rabs_left in Nt by lra. specialize (Nt ltac:(cbn [INR]; unfold u53; lra)). rewrite near_I in Nt, Ng.
      replace (g * U * t4 + U * (1 - sqrt (1 - Ct))) with (U * (g * t4 + (1 - sqrt (1 - Ct)))) by ring. rewrite Rabs_mult, (Rabs_pos_eq U) by lra. apply Rmult_le_compat_l; [lra|]. apply Rabs_le; lra.
  Qed.
End Gamma.

(** ** Exact operations *)
Lemma add_l0 a b y : is64 a 0 -> is64 b y -> is64 (bfadd a b) y.
Proof. intros A B. apply (add64' a b 0 y y); auto; [ring|eapply is64_fmt; eauto|eapply is64_big; eauto]. Qed.
Lemma mul_l1 a b y : is64 a 1 -> is64 b y -> is64 (bfmul a b) y.
Proof. intros A B. apply (mul64' a b 1 y y); auto; [ring|eapply is64_fmt; eauto|eapply is64_big; eauto]. Qed.
Lemma div_r1 a b x : Rabs x <= big -> is64 a x -> is64 b 1 -> is64 (bfdiv a b) x.
Proof.
  intros H A B. assert (E : x / 1 = x) by field. pose proof (div64 a b x 1 A B ltac:(lra)) as D. rewrite E in D. specialize (D H). rewrite (rnd_is _ _ A) in D. exact D.
Qed.
Lemma inf_mul (a : F) x : is64 a x -> 0 < x -> bfmul (B754_infinity false) a = B754_infinity false.
Proof.
  intros [A E] P. destruct a as [s|s| |[] m e B]; try discriminate A; try reflexivity.
  - cbn in E. lra.
  - exfalso. cbn in E. assert (K : @F2R radix2 {| Fnum := Z.neg m; Fexp := e |} < 0) by (apply F2R_lt_0; reflexivity). rewrite E in K. lra.
Qed.
Lemma inf_div (a : F) x : is64 a x -> 0 < x -> bfdiv (B754_infinity false) a = B754_infinity false.
Proof.
  intros [A E] P. destruct a as [s|s| |[] m e B]; try discriminate A; try reflexivity.
  - cbn in E. lra.
  - exfalso. cbn in E. assert (K : @F2R radix2 {| Fnum := Z.neg m; Fexp := e |} < 0) by (apply F2R_lt_0; reflexivity). rewrite E in K. lra.
Qed.
Lemma sf_0 (a : F) s : B2SF a = SpecFloat.S754_zero s -> is64 a 0.
Proof. destruct a as [b|b| |b m' e' Hm]; try discriminate. intros _. split; reflexivity. Qed.
Lemma sf_1 (a : F) : B2SF a = SpecFloat.S754_finite false 4503599627370496 (-52) -> is64 a 1.
Proof. intros H. pose proof (sf_is _ _ _ _ H) as K. cbn [cond_Zopp] in K. change (bpow radix2 (-52)) with (/ 4503599627370496) in K. replace 1 with (4503599627370496 * / 4503599627370496) by field. exact K. Qed.

(** ** A turbine facing a wind along x *)
Definition e1 : F * F * F := (fme 1 0, fme 0 0, fme 0 0).
Definition e3 : F * F * F := (fme 0 0, fme 0 0, fme 1 0).
(** cos 0 = 1, sin 0 = 0, and the cosine and sine of arctan2 are finite *)
Definition good_trig (L : mlib) : Prop := l_cos L (fme 0 0) = fme 1 0 /\ l_sin L (fme 0 0) = fme 0 0 /\
  forall a b x y, is64 a x -> is64 b y -> is_finite (l_cos L (l_atan2 L a b)) = true /\ is_finite (l_sin L (l_atan2 L a b)) = true.
Section Turb.
  Context (L : mlib) (minim : (F -> F) -> F -> F -> F).
  Notation FL := (FN L).
  Definition is_perm (M : (F * F * F) * (F * F * F) * (F * F * F)) : Prop :=
    let '((a, b, c), (d, e, f), (g, h, i)) := M in is64 a 0 /\ is64 b 0 /\ is64 c 1 /\ is64 d 1 /\ is64 e 0 /\ is64 f 0 /\ is64 g 0 /\ is64 h 1 /\ is64 i 0.
  Lemma frame64 R hub U0 ct lam name gr md : good_trig L -> is_perm (T_c2g (N := FL) (new_turbine (N := FL) R hub e1 e3 U0 ct lam name gr md)).
  Proof.
    intros (C & S & _). unfold T_c2g, new_turbine. cbn [update_yaw_pos set_yawf t_Twt2g t_Tc2wt t_vert]. unfold RotMat_AxisAngle, e3 at 1. change (ncos FL (nZ FL 0)) with (l_cos L (fme 0 0)). change (nsin FL (nZ FL 0)) with (l_sin L (fme 0 0)). rewrite C, S.
    unfold is_perm, mmul, mcols, mtr, cross, dot, e1, e3. 
    repeat (split; [first [eapply sf_0; vm_compute; reflexivity|apply sf_1; vm_compute; reflexivity]|]). first [eapply sf_0; vm_compute; reflexivity|apply sf_1; vm_compute; reflexivity].
  Qed.
  Lemma tT64 M (x y z : F) a b c : is_perm M -> is64 x a -> is64 y b -> is64 z c ->
    exists p q r, transform_T (N := FL) M (x, y, z) = (p, q, r) /\ is64 p b /\ is64 q c /\ is64 r a.
  Proof.
    destruct M as [[[[? ?] ?] [[? ?] ?]] [[? ?] ?]]. intros (M1 & M2 & M3 & M4 & M5 & M6 & M7 & M8 & M9) X Y Z. eexists _, _, _. split; [reflexivity|]. split; [|split].
    - apply add_r0; [|eapply mul_l0; eauto]. apply add_l0; [eapply mul_l0; eauto|apply mul_l1; auto].
    - apply add_l0; [|apply mul_l1; auto]. apply add_l0; [eapply mul_l0; eauto|eapply mul_l0; eauto].
    - apply add_r0; [|eapply mul_l0; eauto]. apply add_r0; [apply mul_l1; auto|eapply mul_l0; eauto].
  Qed.
  Lemma t64 M (x y z : F) a b c : is_perm M -> is64 x a -> is64 y b -> is64 z c ->
    exists p q r, transform (N := FL) M (x, y, z) = (p, q, r) /\ is64 p c /\ is64 q a /\ is64 r b.
  Proof.
    destruct M as [[[[? ?] ?] [[? ?] ?]] [[? ?] ?]]. intros (M1 & M2 & M3 & M4 & M5 & M6 & M7 & M8 & M9) X Y Z. eexists _, _, _. split; [reflexivity|]. split; [|split].
    - apply add_l0; [|apply mul_l1; auto]. apply add_l0; [eapply mul_l0; eauto|eapply mul_l0; eauto].
    - apply add_r0; [|eapply mul_l0; eauto]. apply add_r0; [apply mul_l1; auto|eapply mul_l0; eauto].
    - apply add_r0; [|eapply mul_l0; eauto]. apply add_l0; [eapply mul_l0; eauto|apply mul_l1; auto].
  Qed.
End Turb.
Lemma single_nth (N : Num) (t : turbine N) (g : N) pts i v : t_gt t = Some [g] -> t_ground t = false -> t_model t = "VC"%string -> skewed (chi_now t) = false -> neqb N g (nZ N 0) = false ->
  let M := T_c2g t in
  nth_error (vc_tang_u g (t_R t) (nZ N 0) (map (shift (transform_T M (t_rhub t))) (map (transform_T M) pts))) i = Some v -> (i < len pts)%nat ->
  exists us, snd (compute_u t default_opts pts) = Ok us /\ nth_error us i = Some (vadd (transform M (vadd (nZ N 0, nZ N 0, nZ N 0) v)) (t_U0 t)).
Proof.
  intros G Gr Md Sk Z M H I. unfold compute_u. cbn [default_opts o_ground o_Model snd]. rewrite G, Gr, Md. unfold cu_root. cbn [default_opts o_root bind].
  unfold ylist, cu_single. cbn [fold_left bind default_opts o_tang o_longi]. rewrite Z. cbn [negb andb]. unfold cu_tang1. rewrite Sk. cbn [String.eqb bind]. 
  cbn [default_opts o_no_wake o_only_ind]. unfold gl_active1. cbn [negb bind]. eexists. split; [reflexivity|]. fold M. rewrite !nth_error_map. unfold fadd. rewrite map2_nth_error. unfold fzero. rewrite nth_error_map.
  destruct (nth_error pts i) as [q|] eqn:E; [|apply nth_error_None in E; lia]. cbn [option_map]. 
  assert (H' := H). rewrite H'. reflexivity.
Qed.
Lemma fmt2_big a x : is64 a x -> rg 100 x -> Rabs x <= big.
Proof. intros _ G. apply (rg_rel 100); [lia|auto]. Qed.
(** the slope term under a rounded offset *)
Lemma slope_fac z t Ra : 0 < Ra -> fac 1 t -> near (3 * u53) (z * t / sqrt (z * t * (z * t) + Ra * Ra)) (z / sqrt (z * z + Ra * Ra)) /\ Rabs (z / sqrt (z * z + Ra * Ra)) <= 1.
Proof.
  intros P T. assert (Hp : 0 < hyp z Ra) by (apply hyp_pos; right; lra). fold (hyp z Ra).
  destruct (fac_plus 2 (z * z) (Ra * Ra) (t * t) 1) as (r & Fr & E); [apply Rmult_le_pos; apply Rle_0_sqr|apply (fac_mul 1 1); auto|apply fac_1|].
  assert (Es : sqrt (z * t * (z * t) + Ra * Ra) = hyp z Ra * sqrt r). { replace (z * t * (z * t) + Ra * Ra) with ((z * z + Ra * Ra) * r) by (rewrite <- E; ring). apply (sqrt_mult_alt (z * z + Ra * Ra) r). pose proof (Rle_0_sqr z) as A. pose proof (Rle_0_sqr Ra) as B. unfold Rsqr in *. lra. }
  pose proof (fac_sqrt 1 r Fr) as Fs. pose proof (fac_pos _ _ Fs) as Ps. rewrite Es.
  assert (Q : Rabs (z / hyp z Ra) <= 1).
  { unfold Rdiv. rewrite Rabs_mult, Rabs_inv. rewrite (Rabs_pos_eq (hyp z Ra)) by lra. apply Rmult_le_reg_r with (hyp z Ra); [auto|]. rewrite Rmult_assoc, Rinv_l by lra. rewrite Rmult_1_r, Rmult_1_l. rewrite <- sqrt_Rsqr_abs. apply sqrt_le_1_alt. unfold Rsqr. pose proof (Rle_0_sqr Ra) as B. unfold Rsqr in *. lra. }
  split; [|exact Q]. replace (z * t / (hyp z Ra * sqrt r)) with (z / hyp z Ra * (t / sqrt r)) by (field; lra). apply (fac_near 2); [lia|apply (fac_div 1 1); auto|]. cbn [INR]. pose proof u53_pos. apply Rle_trans with (1 * ((1 + 1 + 1) * u53)); [apply Rmult_le_compat_r; lra|lra].
Qed.
(** C137 *)
Section Chain.
  Context (L : mlib) (minim : (F -> F) -> F -> F -> F).
  Notation FL := (FN L).
  Theorem C137_thrust_to_axis : forall (b u c hx hy hz : F) (Ra U Ct Hx Hy Hz : R) name ct, good_acos L -> good_trig L ->
    is64 b Ra -> is64 u U -> is64 c Ct -> is64 hx Hx -> is64 hy Hy -> is64 hz Hz ->
    bpow radix2 (-20) <= Ct <= 89 / 100 -> bpow radix2 (-20) <= Ra <= bpow radix2 20 -> bpow radix2 (-20) <= U <= bpow radix2 20 -> 21 <= 800 * Ra / U ->
    exists t, update_loading (N := FL) minim None (Some [c]) None None (Some 1%nat) None
                (new_turbine (N := FL) b (hx, hy, hz) e1 e3 (u, fme 0 0, fme 0 0) ct (Some (ninf FL)) name false "VC"%string) = (t, Ok tt) /\
      forall pts i (fx : F) X, nth_error pts i = Some (fx, hy, hz) -> is64 fx X -> rg 99 (X - Hx) ->
        exists us vx vy vz w, snd (compute_u t default_opts pts) = Ok us /\ nth_error us i = Some (vx, vy, vz) /\ is64 vx w /\ is64 vy 0 /\ is64 vz 0 /\
          let a := (1 - sqrt (1 - Ct)) / 2 in let z := X - Hx in
          Rabs (w - U * (1 - a * (1 + z / sqrt (z * z + Ra * Ra)))) <= U * (6 / 10 ^ 15 + / (24000 * (800 * Ra / U) ^ 2)).
  Proof.
    intros b u c hx hy hz Ra U Ct Hx Hy Hz name ct GA GT B Hu Hc HX HY HZ BC BR BU BL.
    pose proof (rgs Ct Ra U BC BR BU) as (G1 & G2 & G3 & _ & C0 & R0 & U0). pose proof (Z64 0 ltac:(reflexivity)) as Z0. pose proof (Z64 1 ltac:(reflexivity)) as O1.
    set (t0 := new_turbine (N := FL) b (hx, hy, hz) e1 e3 (u, fme 0 0, fme 0 0) ct (Some (ninf FL)) name false "VC"%string).
    (* the wind speed *)
    assert (NU : is64 (norm (N := FL) (u, fme 0 0, fme 0 0)) U).
    { assert (G : rg 40 (U * U)) by (apply (rg_mul 20 20); auto). pose proof (mul64 _ _ _ _ Hu Hu (proj2 (rg_rel 40 _ ltac:(lia) G))) as M.
      pose proof (add_r0 _ _ _ (add_r0 _ _ _ M (mul_l0 _ _ _ Z0 Z0)) (mul_l0 _ _ _ Z0 Z0)) as M2. 
      assert (P : 0 <= rnd (U * U)) by (rewrite <- rnd_0; apply rnd_le; nra). pose proof (sqrt64 _ _ M2 P) as M3. rewrite sqrt_sq_rnd in M3; [exact M3|auto|eapply is64_fmt; eauto|apply (rg_le 20); [lia|auto]]. }
    set (un := norm (N := FL) (u, fme 0 0, fme 0 0)) in *.
    assert (HM : is64 (np_mean (N := FL) [c]) Ct).
    { apply div_r1; [apply (rg_rel 20); [lia|auto]|exact (add_l0 _ _ _ Z0 Hc)|exact O1]. }
    set (cm := np_mean (N := FL) [c]) in *.
    assert (HR : exists rr, is64 (nmul FL (nQ FL 995 1000) b) rr /\ rr <= Ra).
    { destruct (div_rel 10 _ _ _ _ ltac:(lia) (Z64 995 ltac:(reflexivity)) (Z64 1000 ltac:(reflexivity)) ltac:(lra)) as (s1 & S1 & D1). { apply rg_pos. change (bpow radix2 (- (10))) with (/ 1024). change (bpow radix2 10) with 1024. lra. }
      assert (G : rg 10 (995 / 1000)) by (apply rg_pos; change (bpow radix2 (- (10))) with (/ 1024); change (bpow radix2 10) with 1024; lra).
      destruct (mul_rel 31 _ _ _ _ ltac:(lia) D1 B (rg_mul 11 20 _ _ (rg_fac 1 10 _ _ ltac:(lia) G S1) G2)) as (s2 & S2 & D2). eexists. split; [exact D2|].
      replace (995 / 1000 * s1 * Ra * s2) with (995 / 1000 * (s1 * s2) * Ra) by ring.
      pose proof (fac_near 2 (s1 * s2) 1 (/ 1000) ltac:(lia) (fac_mul 1 1 _ _ S1 S2)) as Nt. rewrite Rabs_R1, near_I, Rmult_1_l in Nt. specialize (Nt ltac:(cbn [INR]; unfold u53; lra)).
      rewrite <- (Rmult_1_l Ra) at 2. apply Rmult_le_compat_r; lra. }
    destruct HR as (rr & HR & Hrr). set (r0 := nmul FL (nQ FL 995 1000) b) in *.
    destruct (gamma64 L minim cm b un r0 Ct Ra U rr HM B NU HR BC BR BU BL Hrr) as (w & g & gv & EW & W1 & W2 & W3 & Hg & Ng & Gg & Eg).
    set (t := set_Ct (set_r (set_Lambda (set_Gr (set_gl (set_gt t0 (Some [g])) None) None) (Some (ninf FL))) (Some [r0])) (Some [cm])).
    exists t. split.
    - unfold update_loading. change (norm (t_U0 t0)) with un. change (t_R t0) with b. change (t_Lambda t0) with (Some (ninf FL)). cbn [load_interp option_map]. fold r0 cm. unfold mbind, mlift, massign. cbn [need bind].
      assert (EO : ndiv FL (nmul FL (ninf FL) un) b = ninf FL). { change (bfdiv (bfmul (B754_infinity false) un) b = B754_infinity false). rewrite (inf_mul _ _ NU U0). apply (inf_div _ _ B R0). }
      assert (EW' : WakeVorticityFromCt (N := FL) minim [r0] [cm] b un (ndiv FL (nmul FL (ninf FL) un) b) = Ok w) by (rewrite EO; exact EW).
      rewrite EW'. rewrite W1, W2, W3. reflexivity.
    - intros pts i fx X Hi HF GF.
      assert (SK : skewed (chi_now t) = false).
      { assert (HH : horizontal e1 e3 (u, fme 0 0, fme 0 0) 1 0 U 0 0).
        { cbn [horizontal e1 e3]. assert (I1 : rg 100 1) by (apply (rg_le 1); [lia|]; apply rg_pos; change (bpow radix2 (- (1))) with (/ 2); change (bpow radix2 1) with 2; lra).
          assert (I0 : rg 100 0) by (left; reflexivity). assert (IU : rg 100 U) by (apply (rg_le 20); [lia|auto]).
          split; [exact O1|]. split; [exact Z0|]. split; [exact Z0|]. split; [exact Z0|]. split; [exact Z0|]. split; [exact O1|]. split; [exact Hu|]. split; [exact Z0|]. split; [exact Z0|].
          split; [exact I1|]. split; [exact I0|]. split; [left; lra|]. split; [exact IU|]. split; [exact I0|]. split; [left; lra|exact I0]. }
        destruct (C134_aligned_partial L b (hx, hy, hz) e1 e3 (u, fme 0 0, fme 0 0) ct (Some (ninf FL)) name false "VC"%string 1 0 U 0 0 U GA HH U0) as [S _].
        - rewrite Rmult_1_r, Rminus_eq_0, Rabs_R0. apply Rmult_le_pos; [apply Rlt_le, u53_pos|apply Rabs_pos].
        - rewrite Rmult_0_r, Rminus_eq_0, Rabs_R0. lra.
        - exact S. }
      assert (PM : is_perm (T_c2g (N := FL) t)) by exact (frame64 L b (hx, hy, hz) (u, fme 0 0, fme 0 0) ct (Some (ninf FL)) name false "VC"%string GT).
      set (M := T_c2g (N := FL) t) in *.
      destruct (tT64 L M hx hy hz Hx Hy Hz PM HX HY HZ) as (c1 & c2 & c3 & EC & C1 & C2 & C3).
      destruct (tT64 L M fx hy hz X Hy Hz PM HF HY HZ) as (d1 & d2 & d3 & ED & D1 & D2 & D3).
      assert (Bz : Rabs (X + - Hx) <= big) by (apply (rg_rel 99); [lia|exact GF]).
      destruct (add_rel _ _ _ _ D3 (opp64 _ _ C3) Bz) as (tz & Tz & Mz0).
      assert (Mz : is64 (bfsub d3 c3) ((X - Hx) * tz)).
      { pose proof (sub64 _ _ _ _ D3 C3 Bz) as Q. pose proof (add64 _ _ _ _ D3 (opp64 _ _ C3) Bz) as Q'. pose proof (is64_fun _ _ _ Mz0 Q') as E. unfold Rminus. rewrite E. exact Q. }
      set (z := X - Hx) in *. assert (Gz : rg 100 (z * tz)) by (apply (rg_fac 1 99); [lia|auto|auto]).
      pose proof (sub_eq _ _ _ D1 C1) as Mx. pose proof (sub_eq _ _ _ D2 C2) as My.
      assert (GR : rg 100 Ra) by (apply (rg_le 20); [lia|auto]). assert (Gg' : rg 100 gv) by (apply (rg_le 43); [lia|auto]).
      destruct (axis_mask L _ _ _ b Ra _ Mx My Mz B R0 GR) as [A1 A2].
      set (P := (bfsub d1 c1, bfsub d2 c2, bfsub d3 c3)) in *.
      assert (HP : nth_error (map (shift (N := FL) (transform_T M (hx, hy, hz))) (map (transform_T (N := FL) M) pts)) i = Some P).
      { pose proof (map_nth_error (transform_T (N := FL) M) i pts Hi) as H1. rewrite ED in H1. pose proof (map_nth_error (shift (N := FL) (transform_T (N := FL) M (hx, hy, hz))) i _ H1) as H2. rewrite EC in H2 at 2. exact H2. }
      pose proof (axis_nth FL g b (nZ FL 0) _ i P HP A1 A2) as AN.
      destruct (axis64 L g b (bfsub d3 c3) gv Ra (z * tz) Hg B Mz R0 Gg' GR Gz) as (uv & q & UV & _ & _ & UB & UE & _).
      destruct (proj2 (proj2 GT) (bfsub d2 c2) (bfsub d1 c1) 0 0 My Mx) as [FC FS].
      set (psi := l_atan2 L (bfsub d2 c2) (bfsub d1 c1)) in *.
      assert (V1 : is64 (bfmul (fme 0 0) (l_cos L psi)) 0) by (eapply mul_l0; [exact Z0|split; [exact FC|reflexivity]]).
      assert (V2 : is64 (bfmul (fme 0 0) (l_sin L psi)) 0) by (eapply mul_l0; [exact Z0|split; [exact FS|reflexivity]]).
      assert (NZg : neqb FL g (nZ FL 0) = false) by (refine (eq_trans (eq64 _ _ _ _ Hg Z0) _); apply Req_bool_false; exact Ng).
      assert (Il : (i < len pts)%nat) by (apply nth_error_Some; rewrite Hi; discriminate).
      destruct (single_nth FL t g pts i (cart_of_polar2 (N := FL) P (nZ FL 0, vc_axis_uz (N := FL) g b (snd P))) eq_refl eq_refl eq_refl SK NZg AN Il) as (us & EU & EN).
      destruct (t64 L M _ _ _ _ _ _ PM (add_l0 _ _ _ Z0 V1) (add_l0 _ _ _ Z0 V2) (add_l0 _ _ _ Z0 UV)) as (v1 & v2 & v3 & EV & I1 & I2 & I3).
      assert (GB : Rabs gv <= U).
      { destruct (mom64 Ct BC) as (s & Es & _ & S1 & S2). rewrite Es in Eg. destruct (ap_small Ct Ra U BC BR BU BL) as ((A3 & _) & A4).
        match type of Eg with _ <= U * ?e => assert (e <= / 1000) by (unfold u53; lra); assert (U * e <= U * / 1000) by (apply Rmult_le_compat_l; lra) end.
        assert (Rabs (gv + U * (1 - s)) <= U * / 1000) by lra. apply Rabs_le_inv in H1. assert (U * (33 / 100) <= U * s) by (apply Rmult_le_compat_l; lra). assert (U * s <= U * 1) by (apply Rmult_le_compat_l; lra). apply Rabs_le. lra. }
      assert (UVB : Rabs uv <= U). { apply Rabs_le_inv in GB. apply Rabs_le. unfold Rmin, Rmax in UB. destruct (Rle_dec 0 gv); lra. }
      assert (UVB' := Rabs_le_inv _ _ UVB).
      assert (B2 : Rabs (uv + U) <= 2 * U) by (apply Rabs_le; lra).
      assert (B3 : Rabs (uv + U) <= big). { eapply Rle_trans; [exact B2|]. apply Rle_trans with (bpow radix2 1 * bpow radix2 20); [change (bpow radix2 1) with 2; lra|]. rewrite <- bpow_plus. apply bpow_le; lia. }
      pose proof (add64 _ _ _ _ I1 Hu B3) as F1.
      exists us, (bfadd v1 u), (bfadd v2 (fme 0 0)), (bfadd v3 (fme 0 0)), (rnd (uv + U)). split; [exact EU|]. split.
      { refine (eq_trans EN _). f_equal. fold M. match goal with |- vadd ?x _ = _ => replace x with ((v1, v2, v3) : FL * FL * FL) by (symmetry; exact EV) end. reflexivity. }
      split; [exact F1|]. split; [exact (add_r0 _ _ _ I2 Z0)|]. split; [exact (add_r0 _ _ _ I3 Z0)|]. cbv zeta.
      destruct (rnd_plus uv U (is64_fmt _ _ UV) (is64_fmt _ _ Hu)) as (dl & Dl & Er).
      destruct (slope_fac z tz Ra R0 Tz) as [SL SB]. unfold axis_exact in UE. set (qh := z * tz / sqrt (z * tz * (z * tz) + Ra * Ra)) in *. set (q0 := z / sqrt (z * z + Ra * Ra)) in *.
      set (s := sqrt (1 - Ct)) in *. destruct (ap_small Ct Ra U BC BR BU BL) as ((A3 & A5) & A4). set (ap := Ct * (U * U) / _) in *. set (lam := / (24000 * (800 * Ra / U) ^ 2)).
      assert (AL : 165 / 100 * ap <= lam).
      { unfold lam. rewrite Rinv_mult. rewrite Rinv_mult in A5. assert (0 < / (800 * Ra / U) ^ 2) by (apply Rinv_0_lt_compat, pow_lt; lra). lra. }
      rewrite Er. replace ((uv + U) * (1 + dl) - U * (1 - (1 - s) / 2 * (1 + q0))) with ((uv + U) * dl + (uv - gv / 2 * (1 + qh)) + gv * ((qh - q0) / 2) + (gv + U * (1 - s)) * ((1 + q0) / 2)) by field.
      assert (K1 : Rabs ((uv + U) * dl) <= 2 * U * u53) by (rewrite Rabs_mult; apply Rmult_le_compat; try apply Rabs_pos; auto).
      assert (K2 : 4 * u53 * Rabs gv <= 4 * u53 * U) by (apply Rmult_le_compat_l; [unfold u53; lra|auto]).
      assert (K3 : Rabs (gv * ((qh - q0) / 2)) <= U * (2 * u53)). { rewrite Rabs_mult. apply Rmult_le_compat; try apply Rabs_pos; auto. unfold near in SL. unfold Rdiv. rewrite Rabs_mult, (Rabs_pos_eq (/ 2)) by lra. unfold u53 in *. lra. }
      assert (K4 : Rabs ((gv + U * (1 - s)) * ((1 + q0) / 2)) <= U * (45 * u53 + 165 / 100 * ap) * 1). { rewrite Rabs_mult. apply Rmult_le_compat; try apply Rabs_pos; auto. apply Rabs_le_inv in SB. apply Rabs_le. lra. }
      eapply Rle_trans; [apply Rabs_triang|]. eapply Rle_trans; [apply Rplus_le_compat_r; apply Rabs_triang|]. eapply Rle_trans; [apply Rplus_le_compat_r; apply Rplus_le_compat_r; apply Rabs_triang|].
      apply Rle_trans with (U * (53 * u53 + lam)); [|apply Rmult_le_compat_l; [lra|]; unfold u53; lra].
      assert (U * (165 / 100 * ap) <= U * lam) by (apply Rmult_le_compat_l; lra). lra.
  Qed.
End Chain.
(** at the hub: the wind reduced by the induction of momentum theory *)
Theorem C137_hub : forall (L : mlib) minim (b u c hx hy hz : F) (Ra U Ct Hx Hy Hz : R) name ct, good_acos L -> good_trig L ->
  is64 b Ra -> is64 u U -> is64 c Ct -> is64 hx Hx -> is64 hy Hy -> is64 hz Hz ->
  bpow radix2 (-20) <= Ct <= 89 / 100 -> bpow radix2 (-20) <= Ra <= bpow radix2 20 -> bpow radix2 (-20) <= U <= bpow radix2 20 -> 21 <= 800 * Ra / U ->
  exists t, update_loading (N := FN L) minim None (Some [c]) None None (Some 1%nat) None
              (new_turbine (N := FN L) b (hx, hy, hz) e1 e3 (u, fme 0 0, fme 0 0) ct (Some (ninf (FN L))) name false "VC"%string) = (t, Ok tt) /\
    exists vx vy vz w, snd (compute_u t default_opts [(hx, hy, hz)]) = Ok [(vx, vy, vz)] /\ is64 vx w /\ is64 vy 0 /\ is64 vz 0 /\
      exists a, Ct = 4 * a * (1 - a) /\ 0 < a < / 2 /\ Rabs (w - U * (1 - a)) <= U * (6 / 10 ^ 15 + / (24000 * (800 * Ra / U) ^ 2)).
Proof.
  intros L minim b u c hx hy hz Ra U Ct Hx Hy Hz name ct GA GT B Hu Hc HX HY HZ BC BR BU BL.
  destruct (C137_thrust_to_axis L minim b u c hx hy hz Ra U Ct Hx Hy Hz name ct GA GT B Hu Hc HX HY HZ BC BR BU BL) as (t & E & K). exists t. split; [exact E|].
  destruct (K [(hx, hy, hz)] 0%nat hx Hx eq_refl HX) as (us & vx & vy & vz & w & EU & EN & I1 & I2 & I3 & Er). { left. ring. }
  exists vx, vy, vz, w. assert (EL : us = [(vx, vy, vz)]).
  { assert (LL : len us = 1%nat) by exact (compute_u_length _ _ _ _ EU).
    destruct us as [|u1 [|u2 us]]; try discriminate LL. injection EN as ->. reflexivity. }
  rewrite <- EL. split; [exact EU|]. split; [exact I1|]. split; [exact I2|]. split; [exact I3|].
  destruct (mom64 Ct BC) as (s & Es & S2 & S3 & S4). exists ((1 - s) / 2). split; [lra|]. split; [lra|]. rewrite Es in Er. cbv zeta in Er. replace (Hx - Hx) with 0 in Er by ring. unfold Rdiv in Er at 2. rewrite (Rmult_0_l (/ sqrt _)), Rplus_0_r, Rmult_1_r in Er. exact Er.
Qed.

(** ** A library and a turbine meeting the hypotheses *)
Definition cos64 (a : F) : F := if Beqb a (fme 0 0) then fme 1 0 else fl_of (cos (B2R a)).
Definition sin64 (a : F) : F := if Beqb a (fme 0 0) then fme 0 0 else fl_of (sin (B2R a)).
Example C137_nonvacuous : good_acos (lib_acos cos64 sin64) /\ good_trig (lib_acos cos64 sin64) /\
  is64 (fme 50 0) 50 /\ is64 (fme 8 0) 8 /\ is64 (fme 3 (-2)) (3 / 4) /\ is64 (fme 90 0) 90 /\ is64 (fme (-200) 0) (-200) /\
  bpow radix2 (-20) <= 3 / 4 <= 89 / 100 /\ bpow radix2 (-20) <= 50 <= bpow radix2 20 /\ bpow radix2 (-20) <= 8 <= bpow radix2 20 /\ 21 <= 800 * 50 / 8 /\ rg 99 (-200 - 0) /\
  8 * (6 / 10 ^ 15 + / (24000 * (800 * 50 / 8) ^ 2)) < 2 / 10 ^ 11.
Proof.
  assert (FI : forall x, Rabs x <= 1 -> is_finite (fl_of x) = true) by (intros x H; apply (fl_of_is x); apply small_big; lra).
  split; [apply lib_acos_good|]. split.
  - split; [reflexivity|]. split; [reflexivity|]. intros a b x y _ _. cbn [l_cos l_sin l_atan2 lib_acos]. unfold cos64, sin64. cbn [Beqb]. split.
    + destruct (Beqb fnan (fme 0 0)); [reflexivity|]. apply FI. apply Rabs_le, COS_bound.
    + destruct (Beqb fnan (fme 0 0)); [reflexivity|]. apply FI. apply Rabs_le, SIN_bound.
  - split; [apply (Z64 50); reflexivity|]. split; [apply (Z64 8); reflexivity|]. split. { replace (3 / 4) with (IZR 3 * bpow radix2 (-2)) by (change (bpow radix2 (-2)) with (/ 4); lra). apply me64; [reflexivity|lia]. }
    split; [apply (Z64 90); reflexivity|]. split; [apply (Z64 (-200)); reflexivity|]. change (bpow radix2 (-20)) with (/ 1048576). change (bpow radix2 20) with 1048576.
    split; [lra|]. split; [lra|]. split; [lra|]. split; [lra|]. split; [|lra]. apply (rg_le 10); [lia|]. right. rewrite Rabs_left by lra. change (bpow radix2 (- (10))) with (/ 1024). change (bpow radix2 10) with 1024. lra.
Qed.
