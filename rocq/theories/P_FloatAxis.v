(** * The axis formula of the vortex cylinder in binary64 arithmetic: C135 *)
From Coq Require Import Reals ZArith Lra Lia List Bool.
From Flocq Require Import Core BinarySingleNaN.
From Verif Require Import Num NumF M_Cylinder L_List P_FloatYaw.
Import ListNotations.
Local Open Scope R_scope.
Local Notation len := List.length.

(** ** The rounded square root of a rounded square *)
Lemma mag_fmt x : 0 < x -> fmt x -> bpow radix2 (-900) <= x ->
  exists e m, x = IZR m * bpow radix2 e /\ (2 ^ 52 <= m < 2 ^ 53)%Z /\ ulp radix2 fexp64 x = bpow radix2 e /\ mag radix2 x = (e + 53)%Z :> Z.
Proof.
  intros P M G. pose proof (bpow_mag_gt radix2 x) as U. pose proof (bpow_mag_le radix2 x ltac:(lra)) as Lo. rewrite Rabs_pos_eq in U, Lo by lra.
  assert (E : (-900 < mag radix2 x)%Z) by (apply (lt_bpow radix2); eapply Rle_lt_trans; [exact G|exact U]).
  assert (C : cexp radix2 fexp64 x = (mag radix2 x - 53)%Z) by (unfold cexp, fexp64, FLT_exp; lia).
  exists (mag radix2 x - 53)%Z, (Ztrunc (scaled_mantissa radix2 fexp64 x)).
  assert (X : x = IZR (Ztrunc (scaled_mantissa radix2 fexp64 x)) * bpow radix2 (mag radix2 x - 53)).
  { rewrite <- C. exact M. }
  split; [exact X|]. set (m := Ztrunc _) in *. split; [|split; [rewrite ulp_neq_0 by lra; rewrite C; reflexivity|lia]].
  pose proof (bpow_gt_0 radix2 (mag radix2 x - 53)) as B0. split.
  - apply le_IZR. apply Rmult_le_reg_r with (1 := B0). rewrite <- X. change (IZR (2 ^ 52)) with (bpow radix2 52). rewrite <- bpow_plus. replace (52 + (mag radix2 x - 53))%Z with (mag radix2 x - 1)%Z by lia. exact Lo.
  - apply lt_IZR. apply Rmult_lt_reg_r with (1 := B0). rewrite <- X. change (IZR (2 ^ 53)) with (bpow radix2 53). rewrite <- bpow_plus. replace (53 + (mag radix2 x - 53))%Z with (mag radix2 x : Z) by lia. exact U.
Qed.
Lemma sqrt_sq_rnd x : 0 < x -> fmt x -> rg 400 x -> rnd (sqrt (rnd (x * x))) = x.
Proof.
  intros P M G. assert (Lx : bpow radix2 (-400) <= x). { destruct G as [->|[G _]]; [lra|]. rewrite Rabs_pos_eq in G by lra. exact G. }
  destruct (mag_fmt x P M) as (e & m & X & Hm & U & Em). { eapply Rle_trans; [|exact Lx]. apply bpow_le; lia. }
  destruct (rnd_rel (x * x)) as (d & D & E). { right. rewrite Rabs_pos_eq by nra. apply Rle_trans with (bpow radix2 (-400) * bpow radix2 (-400)). - rewrite <- bpow_plus. apply bpow_le; lia. - pose proof (bpow_gt_0 radix2 (-400)). apply Rmult_le_compat; lra. }
  pose proof (bpow_gt_0 radix2 e) as B0. set (B := bpow radix2 e) in *.
  assert (M1 : 4503599627370496 <= IZR m) by (apply (IZR_le (2 ^ 52)); lia). assert (M2 : IZR m <= 9007199254740991) by (apply (IZR_le m (2 ^ 53 - 1)); lia).
  assert (D' : - u53 <= d <= u53) by (apply Rabs_le_inv in D || (apply Rabs_def2b in D); lra).
  assert (W0 : 0 <= rnd (x * x)) by (rewrite E; apply Rmult_le_pos; [nra|unfold u53 in D'; lra]).
  apply Rle_antisym.
  - apply round_N_le_midp; [apply exp64|exact M|]. rewrite succ_eq_pos by lra. rewrite U. fold B.
    rewrite <- (sqrt_square ((x + (x + B)) / 2)) by lra. apply sqrt_lt_1; [exact W0|nra|]. rewrite E. rewrite X.
    replace ((IZR m * B + (IZR m * B + B)) / 2 * ((IZR m * B + (IZR m * B + B)) / 2)) with ((IZR m * IZR m + IZR m + / 4) * (B * B)) by field.
    replace (IZR m * B * (IZR m * B) * (1 + d)) with ((IZR m * IZR m + IZR m * (IZR m * d)) * (B * B)) by ring.
    apply Rmult_lt_compat_r; [nra|]. assert (IZR m * d <= 1). { unfold u53 in D'. assert (IZR m * d <= IZR m * / 9007199254740992) by (apply Rmult_le_compat_l; lra). lra. }
    assert (IZR m * (IZR m * d) <= IZR m * 1) by (apply Rmult_le_compat_l; lra). lra.
  - destruct (Z.eq_dec m (2 ^ 52)) as [->|Ne].
    + assert (XX : x = bpow radix2 (e + 52)) by (rewrite X; change (IZR (2 ^ 52)) with (bpow radix2 52); unfold B; rewrite <- bpow_plus; f_equal; lia).
      assert (e + 52 >= -400)%Z. { apply Z.le_ge. apply (le_bpow radix2). rewrite <- XX. exact Lx. }
      rewrite (rnd_id (x * x)). 2:{ rewrite XX, <- bpow_plus. apply fmt_bpow. lia. }
      rewrite sqrt_square by lra. rewrite rnd_id by exact M. lra.
    + assert (M1' : 4503599627370497 <= IZR m) by (apply (IZR_le (2 ^ 52 + 1)); lia).
      apply round_N_ge_midp; [apply exp64|exact M|]. rewrite pred_eq_pos by lra. unfold pred_pos. rewrite Req_bool_false. 2:{ rewrite Em. rewrite X. unfold B. replace (e + 53 - 1)%Z with (52 + e)%Z by lia. rewrite bpow_plus. change (bpow radix2 52) with 4503599627370496. fold B. intros K. apply Rmult_eq_reg_r in K; lra. }
      rewrite U. fold B. rewrite <- (sqrt_square ((x + (x - B)) / 2)). 2:{ rewrite X. assert (1 * B <= IZR m * B) by (apply Rmult_le_compat_r; lra). lra. }
      apply sqrt_lt_1; [nra|exact W0|]. rewrite E. rewrite X.
      replace ((IZR m * B + (IZR m * B - B)) / 2 * ((IZR m * B + (IZR m * B - B)) / 2)) with ((IZR m * IZR m - IZR m + / 4) * (B * B)) by field.
      replace (IZR m * B * (IZR m * B) * (1 + d)) with ((IZR m * IZR m + IZR m * (IZR m * d)) * (B * B)) by ring.
      apply Rmult_lt_compat_r; [nra|]. assert (- (1 - / 9007199254740992) <= IZR m * d). { unfold u53 in D'. assert (IZR m * - d <= 9007199254740991 * / 9007199254740992). { destruct (Rle_dec 0 (- d)). - apply Rmult_le_compat; lra. - assert (IZR m * - d <= 0) by nra. lra. } lra. }
      assert (IZR m * - (1 - / 9007199254740992) <= IZR m * (IZR m * d)) by (apply Rmult_le_compat_l; lra). lra.
Qed.

(** ** The distance to the rim *)
Lemma rim64 (c b : F) z R : is64 c z -> is64 b R -> 0 < R -> rg 100 z -> rg 100 R ->
  exists t, fac 2 t /\ is64 (bfsqrt (bfadd (bfmul c c) (bfmul b b))) (hyp z R * t) /\ Rabs z <= hyp z R * t /\ rg 201 (hyp z R) /\
    hyp z R * t = rnd (sqrt (rnd (rnd (z * z) + rnd (R * R)))).
Proof.
  intros C B P Gz GR.
  assert (Qx : 0 <= z * z) by apply Rle_0_sqr. assert (Qy : 0 <= R * R) by apply Rle_0_sqr.
  assert (Gx : rg 200 (z * z)) by (apply (rg_mul 100 100); auto). assert (Gy : rg 200 (R * R)) by (apply (rg_mul 100 100); auto).
  destruct (rnd_fac 200 (z * z) ltac:(lia) Gx) as (t1 & T1 & E1). destruct (rnd_fac 200 (R * R) ltac:(lia) Gy) as (t2 & T2 & E2).
  pose proof (mul64 c c z z C C (proj2 (rg_rel 200 _ ltac:(lia) Gx))) as M1. pose proof (mul64 b b R R B B (proj2 (rg_rel 200 _ ltac:(lia) Gy))) as M2.
  destruct (fac_plus 1 (z * z) (R * R) t1 t2) as (t3 & T3 & E3); auto. { apply Rmult_le_pos; auto. }
  assert (G3 : rg 201 (z * z + R * R)) by (apply (rg_plus 200); auto).
  assert (Bg : Rabs (rnd (z * z) + rnd (R * R)) <= big). { rewrite E1, E2, E3. apply (rg_rel 202); [lia|]. apply (rg_fac 1 201); [lia|auto|auto]. }
  pose proof (add64 _ _ _ _ M1 M2 Bg) as M4.
  destruct (rnd_plus _ _ (is64_fmt _ _ M1) (is64_fmt _ _ M2)) as (d & Dd & E4). pose proof (fac_d d Dd) as T4.
  assert (E4' : rnd (rnd (z * z) + rnd (R * R)) = (z * z + R * R) * (t3 * (1 + d))) by (rewrite E4, E1, E2, E3; ring).
  assert (T5 : fac 2 (t3 * (1 + d))) by (apply (fac_mul 1 1); auto). pose proof (fac_pos _ _ T5) as P5.
  assert (V0 : 0 <= rnd (rnd (z * z) + rnd (R * R))) by (rewrite E4'; apply Rmult_le_pos; lra).
  pose proof (sqrt64 _ _ M4 V0) as M7.
  assert (Gs : rg 202 (sqrt (rnd (rnd (z * z) + rnd (R * R))))). { apply rg_sqrt; [lia|exact V0|]. rewrite E4'. apply (rg_fac 2 201); [lia|auto|auto]. }
  destruct (rnd_fac 202 _ ltac:(lia) Gs) as (t6 & T6 & E6).
  assert (EE : hyp z R * (sqrt (t3 * (1 + d)) * t6) = rnd (sqrt (rnd (rnd (z * z) + rnd (R * R))))).
  { rewrite E6. rewrite E4'. rewrite (sqrt_mult_alt (z * z + R * R)) by lra. unfold hyp. ring. }
  exists (sqrt (t3 * (1 + d)) * t6). split; [apply (fac_mul 1 1); auto; apply fac_sqrt; auto|]. rewrite EE. split; [exact M7|]. split; [|split; [apply rg_sqrt; [lia|lra|auto]|reflexivity]].
  destruct (Req_dec z 0) as [->|Nz].
  - rewrite Rabs_R0. rewrite <- rnd_0. apply rnd_le. apply sqrt_pos.
  - assert (Z : rnd (sqrt (rnd (Rabs z * Rabs z))) = Rabs z).
    { apply sqrt_sq_rnd; [apply Rabs_pos_lt; auto|apply fmt_abs; eapply is64_fmt; eauto|]. destruct Gz as [Gz|Gz]; [contradiction|]. right. rewrite Rabs_Rabsolu. split; [apply Rle_trans with (2 := proj1 Gz)|apply Rle_trans with (1 := proj2 Gz)]; apply bpow_le; lia. }
    rewrite <- Z at 1. apply rnd_le. apply sqrt_le_1_alt. replace (Rabs z * Rabs z) with (z * z) by (rewrite <- Rabs_mult; rewrite Rabs_pos_eq; lra).
    assert (RR : 0 <= rnd (R * R)) by (rewrite <- rnd_0; apply rnd_le; lra). pose proof (rnd_le (rnd (z * z)) (rnd (z * z) + rnd (R * R)) ltac:(lra)) as K. rewrite (rnd_id _ (fmt_rnd (z * z))) in K. exact K.
Qed.

(** ** The axis value *)
Definition axis_exact (g Ra z : R) : R := g / 2 * (1 + z / sqrt (z * z + Ra * Ra)).
Section Axis.
  Context (L : mlib).
  Notation FL := (FN L).
  Lemma axis64 (a b c : F) g R z : is64 a g -> is64 b R -> is64 c z -> 0 < R -> rg 100 g -> rg 100 R -> rg 100 z ->
    exists u q, is64 (vc_axis_uz (N := FL) a b c) u /\ Rabs q <= 1 /\ u = rnd (g / 2 * rnd (1 + q)) /\
      Rmin 0 g <= u <= Rmax 0 g /\ Rabs (u - axis_exact g R z) <= 4 * u53 * Rabs g /\ q = rnd (z / rnd (sqrt (rnd (rnd (z * z) + rnd (R * R))))).
  Proof.
    intros A B C P Gg GR Gz. destruct (rim64 c b z R C B P Gz GR) as (t & T & M & Lz & Gh & Es). set (s := hyp z R * t) in *.
    assert (Hp : 0 < hyp z R) by (apply hyp_pos; right; lra). pose proof (fac_pos _ _ T) as Tp.
    assert (Sp : 0 < s) by (apply Rmult_lt_0_compat; auto).
    assert (Q1 : Rabs (z / s) <= 1). { unfold Rdiv. rewrite Rabs_mult, Rabs_inv. rewrite (Rabs_pos_eq s) by lra. apply Rmult_le_reg_r with s; [auto|]. rewrite Rmult_assoc, Rinv_l by lra. lra. }
    assert (Gq : rg 302 (z / s)). { unfold s. replace (z / (hyp z R * t)) with (z / hyp z R * / t) by (field; lra). apply (rg_fac 2 301); [lia| |apply fac_inv; auto]. apply (rg_mul 100 201); auto. apply rg_inv; [lra|auto]. }
    pose proof (div64 _ _ _ _ C M ltac:(lra) (proj2 (rg_rel 302 _ ltac:(lia) Gq))) as D. destruct (rnd_fac 302 _ ltac:(lia) Gq) as (t7 & T7 & E7).
    set (q := rnd (z / s)) in *.
    assert (F1 : fmt 1) by (apply (fmt_Z 1); reflexivity). assert (F2 : fmt 2) by (apply (fmt_Z 2); reflexivity).
    assert (Q2 : -1 <= q <= 1).
    { apply Rabs_le_inv in Q1. split.
      - replace (-1) with (rnd (-1)) by (apply rnd_id; exact (fmt_opp _ F1)). apply rnd_le; lra.
      - rewrite <- (rnd_id 1 F1). apply rnd_le; lra. }
    pose proof (Z64 1 ltac:(reflexivity)) as O1. pose proof (Z64 2 ltac:(reflexivity)) as O2.
    assert (Bq : Rabs (1 + q) <= big) by (apply small_big; apply Rabs_le; lra).
    pose proof (add64 _ _ _ _ O1 D Bq) as M1. set (v := rnd (1 + q)) in *.
    assert (V : 0 <= v <= 2). { split; [rewrite <- rnd_0; apply rnd_le; lra|]. replace 2 with (rnd 2) by (apply rnd_id; exact F2). apply rnd_le; lra. }
    assert (Gh2 : rg 101 (g / 2)). { apply (rg_mul 100 1); auto. right. rewrite Rabs_pos_eq by lra. change (bpow radix2 (- (1))) with (/ 2). change (bpow radix2 1) with 2. lra. }
    assert (Fh : fmt (g / 2)).
    { destruct Gg as [->|Gg]; [replace (0 / 2) with 0 by field; apply fmt_0|]. pose proof (is64_fmt _ _ A) as Fg. unfold fmt, fexp64 in *.
      assert (Gx : generic_format radix2 (FLX_exp 53) g) by (apply generic_format_FLX_FLT with (1 := Fg)).
      apply generic_format_FLT_FLX.
      - unfold Rdiv. rewrite Rabs_mult, (Rabs_pos_eq (/ 2)) by lra. apply Rle_trans with (bpow radix2 (-100) * / 2); [|apply Rmult_le_compat_r; [lra|exact (proj1 Gg)]]. change (/ 2) with (bpow radix2 (-1)). rewrite <- bpow_plus. apply bpow_le. reflexivity || lia.
      - unfold Rdiv. change (/ 2) with (bpow radix2 (-1)). apply FLX_format_generic in Gx; [|reflexivity]. destruct Gx as [f X1 X2]. rewrite X1. apply generic_format_FLX. exists (Float radix2 (Fnum f) (Fexp f - 1)); [unfold F2R; cbn [Fnum Fexp]; unfold Zminus; rewrite bpow_plus; change (- (1))%Z with (-1)%Z; ring|exact X2]. }
    pose proof (div64 _ _ _ _ A O2 ltac:(lra) (proj2 (rg_rel 101 _ ltac:(lia) Gh2))) as H2. rewrite (rnd_id _ Fh) in H2.
    pose proof (is64_fmt _ _ A) as Fg.
    assert (Gb : Rabs g <= bpow radix2 100) by (destruct Gg as [->|[_ K]]; [rewrite Rabs_R0; apply bpow_ge_0|exact K]).
    assert (HV : Rabs (g / 2 * v) <= Rabs g). { rewrite Rabs_mult. unfold Rdiv. rewrite Rabs_mult, (Rabs_pos_eq (/ 2)), (Rabs_pos_eq v) by lra. pose proof (Rabs_pos g). nra. }
    assert (Bu : Rabs (g / 2 * v) <= big). { eapply Rle_trans; [exact HV|]. eapply Rle_trans; [exact Gb|]. apply bpow_le; lia. }
    pose proof (mul64 _ _ _ _ H2 M1 Bu) as M2.
    exists (rnd (g / 2 * v)), q. split; [exact M2|]. split; [apply Rabs_le; exact Q2|]. split; [reflexivity|]. split; [|split].
    - unfold Rmin, Rmax. destruct (Rle_dec 0 g) as [K|K].
      + split; [rewrite <- rnd_0|rewrite <- (rnd_id g Fg) at 2]; apply rnd_le; nra.
      + split; [rewrite <- (rnd_id g Fg) at 1|rewrite <- rnd_0]; apply rnd_le; nra.
    - destruct (Req_dec g 0) as [G0|G0].
      { subst g. unfold axis_exact. replace (0 / 2 * v) with 0 by field. rewrite rnd_0. replace (0 - _) with 0 by (unfold Rdiv; ring). rewrite Rabs_R0. lra. }
      destruct Gg as [Gg|[Gl _]]; [contradiction|].
      destruct (rnd_plus _ _ F1 (is64_fmt _ _ D)) as (d1 & D1 & EV). fold q in EV. fold v in EV.
      destruct (rnd_ex (g / 2 * v)) as (d2 & e & D2 & De & EU).
      set (q0 := z / hyp z R) in *.
      assert (Eq : q = q0 * (/ t * t7)) by (rewrite E7; unfold s, q0; field; lra).
      assert (Ft : fac 3 (/ t * t7)) by (apply (fac_mul 2 1); auto; apply fac_inv; auto). pose proof (fac_err _ _ Ft) as Fe.
      assert (W3 : w53 ^ 3 - 1 <= 31 / 10 * u53). { unfold w53, u53. lra. }
      assert (Q0 : Rabs q0 <= 1). { unfold q0, Rdiv. rewrite Rabs_mult, Rabs_inv. rewrite (Rabs_pos_eq (hyp z R)) by lra. apply Rmult_le_reg_r with (hyp z R); [auto|]. rewrite Rmult_assoc, Rinv_l by lra.
        rewrite Rmult_1_r, Rmult_1_l. rewrite <- sqrt_Rsqr_abs. apply sqrt_le_1_alt. unfold Rsqr. nra. }
      assert (Eq1 : Rabs (q - q0) <= 31 / 10 * u53). { rewrite Eq. replace (q0 * (/ t * t7) - q0) with (q0 * (/ t * t7 - 1)) by ring. rewrite Rabs_mult. apply Rle_trans with (1 * (31 / 10 * u53)); [|lra]. apply Rmult_le_compat; try apply Rabs_pos; lra. }
      assert (Ev : Rabs (v - (1 + q)) <= 2 * u53). { rewrite EV. replace ((1 + q) * (1 + d1) - (1 + q)) with ((1 + q) * d1) by ring. rewrite Rabs_mult. apply Rmult_le_compat; try apply Rabs_pos; auto. apply Rabs_le; lra. }
      assert (Ee : eta64 <= / 10 * u53 * Rabs g).
      { apply Rle_trans with (/ 10 * u53 * bpow radix2 (-100)); [|apply Rmult_le_compat_l; [unfold u53; lra|exact Gl]]. unfold eta64. apply Rle_trans with (bpow radix2 (-4 + -53 + -100)); [|rewrite !bpow_plus; change (bpow radix2 (-53)) with (/ 9007199254740992); change (bpow radix2 (-4)) with (/ 16); pose proof (bpow_gt_0 radix2 (-100)); unfold u53; nra].
        apply Rle_trans with (bpow radix2 (-1074)); [pose proof (bpow_gt_0 radix2 (-1074)); lra|apply bpow_le; lia]. }
      unfold axis_exact. fold (hyp z R). fold q0. rewrite EU.
      replace (g / 2 * v * (1 + d2) + e - g / 2 * (1 + q0)) with (g * ((v - (1 + q)) + (q - q0)) * / 2 + g / 2 * v * d2 + e) by field.
      eapply Rle_trans; [apply Rabs_triang|]. eapply Rle_trans; [apply Rplus_le_compat_r; apply Rabs_triang|].
      rewrite !(Rabs_mult _ (/ 2)), (Rabs_pos_eq (/ 2)), (Rabs_mult g), (Rabs_mult _ d2) by lra.
      pose proof (Rabs_pos g) as Pg. assert (K1 : Rabs (v - (1 + q) + (q - q0)) <= 51 / 10 * u53) by (eapply Rle_trans; [apply Rabs_triang|lra]).
      assert (K2 : Rabs (g / 2 * v) * Rabs d2 <= Rabs g * u53) by (apply Rmult_le_compat; auto; apply Rabs_pos).
      assert (K3 : Rabs g * Rabs (v - (1 + q) + (q - q0)) <= Rabs g * (51 / 10 * u53)) by (apply Rmult_le_compat_l; auto). pose proof (Rmult_le_pos _ _ Pg (Rlt_le _ _ u53_pos)). lra.
    - unfold q. rewrite <- Es. reflexivity.
  Qed.
  (** an axis point of an array of control points *)
  Lemma axis_mask (x y c b : F) R z : is64 x 0 -> is64 y 0 -> is64 c z -> is64 b R -> 0 < R -> rg 100 R ->
    vc_isaxis (N := FL) b (vc_r (N := FL) (x, y, c)) = true /\ vc_isrim (N := FL) b (vc_r (N := FL) (x, y, c)) c = false.
  Proof.
    intros X Y C B P G. 
    assert (Rr : is64 (vc_r (N := FL) (x, y, c)) 0).
    { pose proof (add_r0 _ _ _ (mul_l0 _ _ _ X X) (mul_l0 _ _ _ Y Y)) as K. pose proof (sqrt64 _ _ K (Rle_refl 0)) as K2. rewrite sqrt_0, rnd_0 in K2. exact K2. }
    set (r := vc_r (N := FL) (x, y, c)) in *.
    assert (E : exists e, is64 (nQ FL 1 10000000) e /\ / 20000000 <= e <= / 5000000).
    { destruct (div_rel 30 (fme 1 0) (fme 10000000 0) 1 10000000) as (t & T & D); [lia|apply (Z64 1); reflexivity|apply (Z64 10000000); reflexivity|lra| |].
      - right. rewrite Rabs_pos_eq by lra. change (bpow radix2 (- (30))) with (/ 1073741824). change (bpow radix2 30) with 1073741824. lra.
      - exists (1 / 10000000 * t). split; [exact D|]. pose proof (fac_20 1 t ltac:(lia) T). lra. }
    destruct E as (e & E & Be).
    assert (E8 : exists e, is64 (nQ FL 1 100000000) e /\ e <= / 50000000).
    { destruct (div_rel 30 (fme 1 0) (fme 100000000 0) 1 100000000) as (t & T & D); [lia|apply (Z64 1); reflexivity|apply (Z64 100000000); reflexivity|lra| |].
      - right. rewrite Rabs_pos_eq by lra. change (bpow radix2 (- (30))) with (/ 1073741824). change (bpow radix2 30) with 1073741824. lra.
      - exists (1 / 100000000 * t). split; [exact D|]. pose proof (fac_20 1 t ltac:(lia) T). lra. }
    destruct E8 as (e8 & E8 & Be8). split.
    - unfold vc_isaxis, EPS_AXIS.
      assert (Ge : rg 130 (e * R)). { apply (rg_mul 30 100); [|exact G]. right. rewrite Rabs_pos_eq by lra. change (bpow radix2 (- (30))) with (/ 1073741824). change (bpow radix2 30) with 1073741824. lra. }
      destruct (mul_rel 130 _ _ e R ltac:(lia) E B Ge) as (t & T & D). pose proof (fac_pos _ _ T).
      change (Bltb r (bfmul (nQ FL 1 10000000) b) = true). rewrite (lt64 _ _ _ _ Rr D). apply Rlt_bool_true. apply Rmult_lt_0_compat; [apply Rmult_lt_0_compat; lra|auto].
    - unfold vc_isrim. apply andb_false_iff. left. change (Bltb (bfdiv (Babs (bfsub r b)) b) (nQ FL 1 100000000) = false).
      pose proof (is64_fmt _ _ B) as Fb.
      pose proof (sub64' r b 0 R (- R) Rr B ltac:(ring) (fmt_opp _ Fb)) as S. rewrite Rabs_Ropp in S. specialize (S (is64_big _ _ B)).
      pose proof (abs64 _ _ S) as S2. rewrite Rabs_Ropp, Rabs_pos_eq in S2 by lra.
      pose proof (div64 _ _ _ _ S2 B ltac:(lra)) as S3. replace (R / R) with 1 in S3 by (field; lra). specialize (S3 (small_big 1 ltac:(rewrite Rabs_R1; lra))).
      rewrite (rnd_id 1) in S3 by (apply (fmt_Z 1); reflexivity). rewrite (lt64 _ _ _ _ S3 E8). apply Rlt_bool_false. lra.
  Qed.
End Axis.
Lemma scatter_nth_false {A} k : forall mask (vals dflt : list A), len mask = len dflt -> len vals = len (filter (fun b => b) mask) -> nth_error mask k = Some false -> nth_error (scatter mask vals dflt) k = nth_error dflt k.
Proof.
  induction k as [|k IH]; intros [|m mask] vals [|d dflt] H1 H2 H; try discriminate.
  - injection H as ->. reflexivity.
  - destruct m.
    + destruct vals as [|v vals]; [discriminate|]. cbn in *. apply IH; auto.
    + cbn in *. apply IH; auto.
Qed.
Lemma axis_nth (N : Num) (gamma R eps : N) pts k p : nth_error pts k = Some p -> vc_isaxis R (vc_r p) = true -> vc_isrim R (vc_r p) (snd p) = false ->
  nth_error (vc_tang_u gamma R eps pts) k = Some (cart_of_polar2 p (nZ N 0, vc_axis_uz gamma R (snd p))).
Proof.
  intros H A B. unfold vc_tang_u, vc_tang_u_gen. rewrite map2_nth_error, H. unfold vc_tang_polar_gen. rewrite scatter_nth_false.
  - rewrite map_map, nth_error_map, H. cbn [option_map]. unfold vc_special. rewrite B. reflexivity.
  - rewrite !map_length. reflexivity.
  - rewrite map2_length, ellipticPiCarlson_length, map_length, Nat.min_id. apply gather_length. rewrite !map_length. reflexivity.
  - rewrite map_map, nth_error_map, H. cbn [option_map fst snd]. unfold vc_normal. cbn [fst snd]. rewrite A. reflexivity.
Qed.

(** ** Far from the rotor the radius is rounded away *)
Lemma rim_far z R : z <> 0 -> 0 < R -> fmt z -> rg 100 z -> rg 100 R -> 268435456 * R <= Rabs z -> rnd (sqrt (rnd (rnd (z * z) + rnd (R * R)))) = Rabs z.
Proof.
  intros Nz P Fz Gz GR H. pose proof (Rabs_pos_lt z Nz) as Pz.
  assert (Qz : 0 < z * z) by (rewrite <- (Rabs_pos_eq (z * z)) by apply Rle_0_sqr; rewrite Rabs_mult; apply Rmult_lt_0_compat; auto).
  assert (Gx : rg 200 (z * z)) by (apply (rg_mul 100 100); auto). assert (Gy : rg 200 (R * R)) by (apply (rg_mul 100 100); auto).
  destruct (rnd_fac 200 (z * z) ltac:(lia) Gx) as (t1 & T1 & E1). destruct (rnd_fac 200 (R * R) ltac:(lia) Gy) as (t2 & T2 & E2).
  pose proof (fac_20 1 t1 ltac:(lia) T1) as B1. pose proof (fac_20 1 t2 ltac:(lia) T2) as B2.
  assert (RR : R * R <= / 72057594037927936 * (z * z)).
  { replace (z * z) with (Rabs z * Rabs z) by (rewrite <- Rabs_mult; apply Rabs_pos_eq; lra). assert (R <= / 268435456 * Rabs z) by lra.
    replace (/ 72057594037927936 * (Rabs z * Rabs z)) with ((/ 268435456 * Rabs z) * (/ 268435456 * Rabs z)) by field. apply Rmult_le_compat; lra. }
  assert (Wp : / 2 * (z * z) <= rnd (z * z)) by (rewrite E1; assert (z * z * / 2 <= z * z * t1) by (apply Rmult_le_compat_l; lra); lra).
  assert (Rp : 0 <= rnd (R * R)) by (rewrite <- rnd_0; apply rnd_le; nra).
  assert (Wf : fac 1 t1 /\ fac 1 t2) by auto. destruct T1 as [T1a T1b]. destruct T2 as [T2a T2b]. rewrite pow_1 in T1a, T1b, T2a, T2b.
  assert (Tu : 1 - u53 <= t1 /\ t2 <= 2) by (unfold w53 in T1a; rewrite Rinv_inv in T1a; lra).
  assert (W9 : 9 / 10 * (z * z) <= rnd (z * z)). { rewrite E1. unfold u53 in Tu. assert (z * z * (9 / 10) <= z * z * t1) by (apply Rmult_le_compat_l; lra). lra. }
  assert (R9 : rnd (R * R) <= / 36028797018963968 * (11 / 10) * (z * z) * (/ 2)).
  { rewrite E2. assert (t2 <= 11 / 10) by (unfold w53, u53 in T2b; lra). assert (R * R * t2 <= R * R * (11 / 10)) by (apply Rmult_le_compat_l; nra). lra. }
  assert (K : rnd (rnd (z * z) + rnd (R * R)) = rnd (z * z)).
  { apply Rle_antisym.
    - apply round_N_le_midp; [apply exp64|apply fmt_rnd|]. rewrite succ_eq_pos by lra.
      destruct (mag_fmt (rnd (z * z)) ltac:(lra) (fmt_rnd _)) as (e & m & X & Hm & U & _).
      { assert (G1 : rg 201 (z * z * t1)) by (apply (rg_fac 1 200); [lia|auto|tauto]). rewrite <- E1 in G1. destruct G1 as [G1|[G1 _]]; [lra|]. rewrite Rabs_pos_eq in G1 by lra. eapply Rle_trans; [|exact G1]. apply bpow_le; lia. }
      rewrite U. assert (IZR m <= 9007199254740992) by (apply (IZR_le m (2 ^ 53)); lia). pose proof (bpow_gt_0 radix2 e) as B0.
      assert (rnd (z * z) <= 9007199254740992 * bpow radix2 e) by (rewrite X at 1; apply Rmult_le_compat_r; lra). lra.
    - rewrite <- (rnd_id _ (fmt_rnd (z * z))) at 1. apply rnd_le. lra. }
  rewrite K. replace (z * z) with (Rabs z * Rabs z) by (rewrite <- Rabs_mult; apply Rabs_pos_eq; lra).
  apply sqrt_sq_rnd; [auto|apply fmt_abs; auto|]. destruct Gz as [Gz|Gz]; [contradiction|]. right. rewrite Rabs_Rabsolu. split; [apply Rle_trans with (2 := proj1 Gz)|apply Rle_trans with (1 := proj2 Gz)]; apply bpow_le; lia.
Qed.

(** ** Theorems *)
(** Inputs of [vc_tang_u] at an axis point: the numbers are 0 or between 2^-100 and 2^100 in magnitude *)
Definition axis_point (a b x y c : F) (g Ra z : R) : Prop := is64 a g /\ is64 b Ra /\ is64 x 0 /\ is64 y 0 /\ is64 c z /\ 0 < Ra /\ rg 100 g /\ rg 100 Ra /\ rg 100 z.
(** The axial velocity computed on the axis of a cylinder is a number between 0 and gamma_t, whatever the rounding, within 4 units of 2^-53 |gamma_t| of gamma_t/2 (1 + z/sqrt(z^2+R^2));
    [eps] and the other points of the array do not matter *)
Theorem C135_axis_rounding : forall (L : mlib) (a b eps x y c : F) pts k g Ra z, axis_point a b x y c g Ra z -> nth_error pts k = Some (x, y, c) ->
  exists ux uy uz u, nth_error (vc_tang_u (N := FN L) a b eps pts) k = Some (ux, uy, uz) /\ is64 uz u /\ Rmin 0 g <= u <= Rmax 0 g /\
    Rabs (u - axis_exact g Ra z) <= 4 * u53 * Rabs g.
Proof.
  intros L a b eps x y c pts k g Ra z (A & B & X & Y & C & P & Gg & GR & Gz) H.
  destruct (axis_mask L x y c b Ra z X Y C B P GR) as [M1 M2]. pose proof (axis_nth (FN L) a b eps pts k (x, y, c) H M1 M2) as E.
  destruct (axis64 L a b c g Ra z A B C P Gg GR Gz) as (u & q & U & _ & _ & R1 & R2 & _).
  cbn [cart_of_polar2 fst snd] in E. eexists _, _, _, u. split; [exact E|]. cbn [snd]. auto.
Qed.
(** The exact velocity never vanishes, and falls off as (R/z)^2 upstream *)
Lemma axis_exact_lower g Ra z : 0 < Ra -> Rabs g / 4 * (Ra * Ra / (z * z + Ra * Ra)) <= Rabs (axis_exact g Ra z).
Proof.
  intros P. unfold axis_exact. fold (hyp z Ra). assert (Hp : 0 < hyp z Ra) by (apply hyp_pos; right; lra). rewrite <- (hyp_sq z Ra). pose proof (hyp_sq z Ra) as Sq. set (h := hyp z Ra) in *.
  assert (Z : - h <= z <= h). { split; apply Rnot_lt_le; intros K; nra. }
  assert (E : 1 + z / h = Ra * Ra / (h * (h - z))). { assert (h - z <> 0) by nra. replace (Ra * Ra) with ((h - z) * (h + z)) by nra. field. split; lra. }
  assert (D : 0 < h - z) by nra.
  rewrite Rabs_mult. replace (Rabs (g / 2)) with (Rabs g * / 2) by (unfold Rdiv; rewrite Rabs_mult, (Rabs_pos_eq (/ 2)); lra).
  rewrite E. rewrite (Rabs_pos_eq (Ra * Ra / (h * (h - z)))). 2:{ apply Rmult_le_pos; [nra|]. left. apply Rinv_0_lt_compat. apply Rmult_lt_0_compat; auto. }
  assert (K : Ra * Ra / (h * h) * / 2 <= Ra * Ra / (h * (h - z))).
  { apply Rmult_le_reg_r with (h * (h - z) * (h * h)); [repeat apply Rmult_lt_0_compat; auto|].
    replace (Ra * Ra / (h * h) * / 2 * (h * (h - z) * (h * h))) with (Ra * Ra * h * ((h - z) / 2)) by (field; lra). replace (Ra * Ra / (h * (h - z)) * (h * (h - z) * (h * h))) with (Ra * Ra * h * h) by (field; lra).
    apply Rmult_le_compat_l; [apply Rmult_le_pos; nra|lra]. }
  pose proof (Rabs_pos g). assert (Rabs g * / 2 * (Ra * Ra / (h * h) * / 2) <= Rabs g * / 2 * (Ra * Ra / (h * (h - z)))) by (apply Rmult_le_compat_l; lra). lra.
Qed.
(** hence a bound on the relative error, which grows as (z/R)^2 *)
Theorem C135_axis_relative : forall (L : mlib) (a b eps x y c : F) pts k g Ra z, axis_point a b x y c g Ra z -> nth_error pts k = Some (x, y, c) ->
  exists ux uy uz u, nth_error (vc_tang_u (N := FN L) a b eps pts) k = Some (ux, uy, uz) /\ is64 uz u /\
    Rabs (u - axis_exact g Ra z) <= 16 * u53 * (1 + (z / Ra) ^ 2) * Rabs (axis_exact g Ra z).
Proof.
  intros L a b eps x y c pts k g Ra z AP H. destruct (C135_axis_rounding L a b eps x y c pts k g Ra z AP H) as (ux & uy & uz & u & E & U & _ & R2).
  exists ux, uy, uz, u. split; [exact E|]. split; [exact U|]. eapply Rle_trans; [exact R2|]. destruct AP as (_ & _ & _ & _ & _ & P & _).
  pose proof (axis_exact_lower g Ra z P) as Lo. pose proof (Rle_0_sqr z) as Q. unfold Rsqr in Q. assert (S : 0 < z * z + Ra * Ra) by nra.
  replace (4 * u53 * Rabs g) with (16 * u53 * (1 + (z / Ra) ^ 2) * (Rabs g / 4 * (Ra * Ra / (z * z + Ra * Ra)))) by (field; nra).
  apply Rmult_le_compat_l; [|exact Lo]. pose proof u53_pos. apply Rmult_le_pos; [lra|]. pose proof (pow2_ge_0 (z / Ra)). lra.
Qed.
(** From 2^28 radii on the value is exactly 0 upstream and exactly gamma_t downstream *)
Theorem C135_far : forall (L : mlib) (a b eps x y c : F) pts k g Ra z, axis_point a b x y c g Ra z -> nth_error pts k = Some (x, y, c) -> z <> 0 -> 268435456 * Ra <= Rabs z ->
  exists ux uy uz, nth_error (vc_tang_u (N := FN L) a b eps pts) k = Some (ux, uy, uz) /\ is64 uz (if Rlt_dec z 0 then 0 else g).
Proof.
  intros L a b eps x y c pts k g Ra z (A & B & X & Y & C & P & Gg & GR & Gz) H Nz Hz.
  destruct (axis_mask L x y c b Ra z X Y C B P GR) as [M1 M2]. pose proof (axis_nth (FN L) a b eps pts k (x, y, c) H M1 M2) as E.
  destruct (axis64 L a b c g Ra z A B C P Gg GR Gz) as (u & q & U & _ & Eu & _ & _ & Eq).
  cbn [cart_of_polar2 fst snd] in E. eexists _, _, _. split; [exact E|]. 
  rewrite (rim_far z Ra Nz P (is64_fmt _ _ C) Gz GR Hz) in Eq. assert (F1 : fmt 1) by (apply (fmt_Z 1); reflexivity). assert (F2 : fmt 2) by (apply (fmt_Z 2); reflexivity).
  assert (V : u = if Rlt_dec z 0 then 0 else g).
  { destruct (Rlt_dec z 0) as [N|N].
    - rewrite Rabs_left in Eq by auto. replace (z / - z) with (- (1)) in Eq by (field; lra). rewrite rnd_opp, (rnd_id 1 F1) in Eq. rewrite Eu, Eq. replace (1 + - (1)) with 0 by ring. rewrite rnd_0, Rmult_0_r. apply rnd_0.
    - rewrite Rabs_pos_eq in Eq by lra. replace (z / z) with 1 in Eq by (field; auto). rewrite (rnd_id 1 F1) in Eq. rewrite Eu, Eq. replace (1 + 1) with 2 by ring. rewrite (rnd_id 2 F2). replace (g / 2 * 2) with g by field. apply rnd_id. eapply is64_fmt; eauto. }
  rewrite <- V. exact U.
Qed.
(** the property one would want: some relative accuracy below 1, wherever the numbers are in range *)
Definition C135_uniform_relative (L : mlib) : Prop := exists rel, rel < 1 /\ forall (a b eps x y c : F) pts k g Ra z, axis_point a b x y c g Ra z -> nth_error pts k = Some (x, y, c) ->
  exists ux uy uz u, nth_error (vc_tang_u (N := FN L) a b eps pts) k = Some (ux, uy, uz) /\ is64 uz u /\ Rabs (u - axis_exact g Ra z) <= rel * Rabs (axis_exact g Ra z).
Lemma point_nonvacuous m e m' e' m'' e'' : (Z.abs m < 2 ^ 53)%Z -> (-40 <= e <= 40)%Z -> m <> 0%Z -> (0 < m' < 2 ^ 53)%Z -> (-40 <= e' <= 40)%Z -> (Z.abs m'' < 2 ^ 53)%Z -> (-40 <= e'' <= 40)%Z ->
  axis_point (fme m e) (fme m' e') (fme 0 0) (fme 0 0) (fme m'' e'') (IZR m * bpow radix2 e) (IZR m' * bpow radix2 e') (IZR m'' * bpow radix2 e'').
Proof.
  intros Hm He Nm Hm' He' Hm'' He''.
  assert (G : forall m e, (Z.abs m < 2 ^ 53)%Z -> (-40 <= e <= 40)%Z -> rg 100 (IZR m * bpow radix2 e)).
  { intros n j Hn Hj. destruct (Z.eq_dec n 0) as [->|Nn]; [left; ring|right]. rewrite Rabs_mult, (Rabs_pos_eq (bpow radix2 j)) by apply bpow_ge_0. rewrite <- abs_IZR. pose proof (bpow_gt_0 radix2 j).
    assert (1 <= IZR (Z.abs n)) by (apply IZR_le; lia). assert (IZR (Z.abs n) <= bpow radix2 53) by (apply (IZR_le _ (2 ^ 53)); lia). split.
    - apply Rle_trans with (1 * bpow radix2 j); [rewrite Rmult_1_l; apply bpow_le; lia|apply Rmult_le_compat_r; lra].
    - apply Rle_trans with (bpow radix2 53 * bpow radix2 j); [apply Rmult_le_compat_r; lra|]. rewrite <- bpow_plus. apply bpow_le. lia. }
  pose proof (Z64 0 ltac:(reflexivity)) as Z0. unfold axis_point.
  split; [apply me64; lia|]. split; [apply me64; lia|]. split; [exact Z0|]. split; [exact Z0|]. split; [apply me64; lia|].
  split; [apply Rmult_lt_0_compat; [apply IZR_lt; lia|apply bpow_gt_0]|]. split; [apply G; lia|]. split; apply G; lia.
Qed.
Theorem C135_relative_refuted : forall L : mlib, ~ C135_uniform_relative L.
Proof.
  intros L (rel & Hr & H).
  pose proof (point_nonvacuous (-1) 0 1 0 (-1) 28 ltac:(reflexivity) ltac:(lia) ltac:(lia) ltac:(lia) ltac:(lia) ltac:(reflexivity) ltac:(lia)) as AP.
  set (pts := [(fme 0 0, fme 0 0, fme (-1) 28)]).
  destruct (H _ _ (fme 0 0) _ _ _ pts 0%nat _ _ _ AP eq_refl) as (ux & uy & uz & u & E & U & K).
  change (bpow radix2 0) with 1 in *. change (bpow radix2 28) with 268435456 in *.
  destruct (C135_far L _ _ (fme 0 0) _ _ _ pts 0%nat _ _ _ AP eq_refl) as (ux' & uy' & uz' & E' & U'); [lra|rewrite Rabs_left by lra; lra|].
  rewrite E in E'. injection E' as -> -> ->. destruct (Rlt_dec (-1 * 268435456) 0) as [_|N]; [|lra]. rewrite (is64_fun _ _ _ U U') in K.
  pose proof (axis_exact_lower (-1 * 1) (1 * 1) (-1 * 268435456) ltac:(lra)) as Lo. rewrite (Rabs_left (-1 * 1)) in Lo by lra.
  rewrite Rminus_0_l, Rabs_Ropp in K. set (w := Rabs (axis_exact _ _ _)) in *. assert (0 < w) by lra. nra.
Qed.
(** outside the range: a metre-scale input in the wrong unit is enough to leave binary64; the squares underflow and the velocity is infinite, or NaN at the rotor centre *)
Example C135_range_needed : forall L : mlib,
  vc_axis_uz (N := FN L) (fme (-1) 0) (fme 1 (-600)) (fme 1 (-600)) = B754_infinity true /\ vc_axis_uz (N := FN L) (fme (-1) 0) (fme 1 (-600)) (fme 0 0) = fnan.
Proof. intros L. split; reflexivity. Qed.
