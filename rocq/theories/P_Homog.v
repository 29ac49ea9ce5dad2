(** * C152: the induced velocities are proportional to the vorticity; in binary64, opposite vorticity induces exactly the opposite velocities *)
From Coq Require Import Reals ZArith Lra Lia List Bool String.
From Flocq Require Import Core BinarySingleNaN.
From Verif Require Import Num NumR NumX NumF M_Elliptic M_Line M_Doublet M_Cylinder M_Misc M_Skewed M_Solver M_Turbine M_Farm Spec L_Geom L_Angles L_List L_Turbine L_State L_TurbineX L_Homog P_Float P_FloatAxis P_Mirror P_MirrorSwirl.
Import ListNotations.
Local Open Scope R_scope.
Local Open Scope list_scope.
Local Notation len := List.length.

(** ** Extended reals: a factor k other than 0 *)
Definition times (k : R) (x : XN) : XN := nmul XN (Fin k) x.
Lemma times_multiple k : k <> 0 -> multiple (fun x y => y = times k x).
Proof.
  intros Hk. unfold times. assert (D : forall a b : XN, xmul (Fin k) (xadd a b) = xadd (xmul (Fin k) a) (xmul (Fin k) b)).
  { intros a b. destruct a as [a| | |], b as [b| | |]; cbn; unfold xinf_mul; destruct (Rltb_spec 0 k), (Rltb_spec k 0); try lra; cbn; try reflexivity; f_equal; ring. }
  assert (OP : forall a : XN, xmul (Fin k) (nopp XN a) = nopp XN (xmul (Fin k) a)).
  { intros a. destruct a as [a| | |]; cbn; unfold xinf_mul; destruct (Rltb_spec 0 k), (Rltb_spec k 0); try lra; cbn; try reflexivity; f_equal; ring. }
  constructor.
  - cbn. f_equal. ring.
  - reflexivity.
  - intros a a' b b' -> ->. symmetry. apply D.
  - intros a a' b b' -> ->. destruct a as [a| | |], b as [b| | |]; cbn; unfold xinf_mul; destruct (Rltb_spec 0 k), (Rltb_spec k 0); try lra; cbn; try reflexivity; f_equal; ring.
  - intros a a' ->. symmetry. apply OP.
  - intros a a' b ->. destruct a as [a| | |], b as [b| | |]; cbn; unfold xinf_mul;
      repeat (match goal with |- context [Rltb ?x ?y] => destruct (Rltb_spec x y) end; cbn; unfold xinf_mul); try lra; try reflexivity; try (f_equal; ring); try nra.
  - intros a a' b ->. destruct a as [a| | |], b as [b| | |]; cbn; unfold xinf_mul;
      repeat (match goal with |- context [Rltb ?x ?y] => destruct (Rltb_spec x y) end; cbn; unfold xinf_mul); try lra; try reflexivity; try (f_equal; ring); try nra.
  - intros a a' b ->. destruct a as [a| | |], b as [b| | |]; cbn; unfold xinf_mul;
      repeat (match goal with |- context [Rltb ?x ?y] => destruct (Rltb_spec x y) | |- context [Reqb ?x ?y] => destruct (Reqb_spec x y) end; cbn; unfold xinf_mul); try lra; try reflexivity; try (f_equal; field; lra); try nra; try (f_equal; ring).
  - intros r. destruct r as [r| | |]; cbn; unfold xinf_mul; repeat (match goal with |- context [Rltb ?x ?y] => destruct (Rltb_spec x y) end; cbn); try lra; try reflexivity; try (f_equal; ring).
  - intros a a' ->. destruct a as [a| | |]; cbn; unfold xinf_mul; repeat (match goal with |- context [Rltb ?x ?y] => destruct (Rltb_spec x y) end; cbn); try lra; try reflexivity.
    destruct (Reqb_spec (k * a) 0) as [E|E], (Reqb_spec a 0) as [E'|E']; try reflexivity; [apply Rmult_integral in E; destruct E; contradiction|exfalso; apply E; rewrite E'; ring].
  - intros a a' ->. destruct a as [a| | |]; cbn; unfold xinf_mul; repeat (match goal with |- context [Rltb k ?y] => destruct (Rltb_spec k y) | |- context [Rltb ?y k] => destruct (Rltb_spec y k) end; cbn); try lra; try reflexivity;
      rewrite Rabs_mult; assert (0 < Rabs k) by (apply Rabs_pos_lt; assumption); destruct (Rltb_spec 0 (Rabs k * Rabs a)) as [E|E], (Rltb_spec 0 (Rabs a)) as [E'|E']; try reflexivity; exfalso;
      [pose proof (Rabs_pos a); assert (Z : Rabs a = 0) by lra; rewrite Z in E; lra| apply E; apply Rmult_lt_0_compat; assumption].
Qed.
Definition times3 (k : R) (p : XN * XN * XN) : XN * XN * XN := let '(a, b, c) := p in (times k a, times k b, times k c).
Definition times_result (k : R) (r : result (list (XN * XN * XN))) : result (list (XN * XN * XN)) := match r with Ok us => Ok (map (times3 k) us) | Err e => Err e end.
Lemma times_Or k r r' : Or (fun x y : XN => y = times k x) r r' -> r' = times_result k r.
Proof.
  destruct r as [u|e], r' as [u'|e']; cbn; intros H; try contradiction; [|congruence]. f_equal. induction H as [|[[a b] c] [[a' b'] c'] u u' (-> & -> & ->) HF IH]; [reflexivity|].
  cbn. rewrite IH. reflexivity.
Qed.
Theorem C152_scaled : forall k (t : turbine XN) (o : opts XN) pts, k <> 0 -> o_only_ind o = true ->
  compute_u (with_vorticity (times k) t) o pts = (with_vorticity (times k) (fst (compute_u t o pts)), times_result k (snd (compute_u t o pts))).
Proof.
  intros k t o pts Hk HI. destruct (H_compute _ (times_multiple k Hk) (times k) (fun x => eq_refl) t o pts HI) as [H1 H2].
  rewrite (surjective_pairing (compute_u (with_vorticity (times k) t) o pts)). rewrite H1. f_equal. apply times_Or, H2.
Qed.
Theorem C152_farm_scaled : forall k (h : heap XN) (F : farm) (o : opts XN) pts, k <> 0 ->
  velocity_field (map (obj_with (times k)) h) F o None pts = (map (obj_with (times k)) (fst (velocity_field h F o None pts)), times_result k (snd (velocity_field h F o None pts))).
Proof.
  intros k h F o pts Hk. destruct (H_farm _ (times_multiple k Hk) (times k) (fun x => eq_refl) h F o pts) as [H1 H2].
  rewrite (surjective_pairing (velocity_field (map (obj_with (times k)) h) F o None pts)). rewrite H1. f_equal. apply times_Or, H2.
Qed.

(** ** binary64: the opposite vorticity *)
(** two finite numbers of opposite values (zeros of any sign count as opposite), infinities of opposite signs, or NaN twice *)
Definition opposite (a b : F) : Prop :=
  (is_finite a = true /\ is_finite b = true /\ B2R b = - B2R a) \/ (exists s, a = B754_infinity s /\ b = B754_infinity (negb s)) \/ (a = B754_nan /\ b = B754_nan).
Lemma sign0 (a b : F) : is_finite a = true -> is_finite b = true -> B2R b = - B2R a -> Bsign b = Bsign a -> B2R a = 0.
Proof.
  assert (P : forall m e, 0 < F2R (Float radix2 (Z.pos m) e)) by (intros; apply F2R_gt_0; reflexivity).
  assert (Q : forall m e, F2R (Float radix2 (Z.neg m) e) < 0) by (intros; apply F2R_lt_0; reflexivity).
  destruct a as [s|s| |s m e H], b as [s'|s'| |s' m' e' H']; cbn; intros H1 H2 H3 H4; try discriminate; try reflexivity; try lra. exfalso. subst s'.
  destruct s; cbn in H3; [pose proof (Q m e); pose proof (Q m' e')|pose proof (P m e); pose proof (P m' e')]; lra.
Qed.
Lemma sign_neg (a b : F) : is_finite a = true -> is_finite b = true -> B2R b = - B2R a -> B2R a <> 0 -> Bsign b = negb (Bsign a).
Proof. intros H1 H2 H3 H4. destruct (Bsign b) eqn:E, (Bsign a) eqn:E'; try reflexivity; exfalso; apply H4, (sign0 a b); congruence. Qed.
Lemma sf_inf s (a : F) : B2SF a = SpecFloat.S754_infinity s -> a = B754_infinity s.
Proof. intros H. apply B2SF_inj. exact H. Qed.
Ltac nan_both := solve [right; right; split; repeat match goal with |- context [_ ?x ?y] => is_var x; destruct x | |- context [_ ?x ?y] => is_var y; destruct y end; reflexivity].
Lemma opp_add a a' b b' : opposite a a' -> opposite b b' -> opposite (bfadd a b) (bfadd a' b').
Proof.
  intros [(A1 & A2 & A3)|[(s & -> & ->)|[-> ->]]] [(B1 & B2 & B3)|[(s' & -> & ->)|[-> ->]]];
    try nan_both.
  - pose proof (Bplus_correct 53 1024 pgt plt mode_NE a b A1 B1) as P. pose proof (Bplus_correct 53 1024 pgt plt mode_NE a' b' A2 B2) as P'.
    change (SpecFloat.fexp 53 1024) with fexp64 in *. change (round_mode mode_NE) with ZnearestE in *. change (round radix2 fexp64 ZnearestE) with rnd in *.
    rewrite A3, B3 in P'. replace (- B2R a + - B2R b) with (- (B2R a + B2R b)) in P' by ring. rewrite rnd_opp, Rabs_Ropp in P'.
    destruct (Rlt_bool_spec (Rabs (rnd (B2R a + B2R b))) (bpow radix2 1024)) as [L|L].
    + left. destruct P as (P1 & P2 & _), P' as (P1' & P2' & _). split; [exact P2|]. split; [exact P2'|]. unfold bfadd. rewrite P1, P1'. reflexivity.
    + right; left. destruct P as (P1 & P2), P' as (P1' & P2'). exists (Bsign a). split; [apply sf_inf, P1|]. apply sf_inf. unfold bfadd. rewrite P1'.
      unfold binary_overflow. cbn. f_equal. destruct (Bool.bool_dec (Bsign a') (Bsign a)) as [E|E]; [|destruct (Bsign a'), (Bsign a); try reflexivity; contradiction E; reflexivity].
      exfalso. assert (Z1 : B2R a = 0) by (apply (sign0 a a'); assumption). assert (Z2 : B2R b = 0) by (apply (sign0 b b'); congruence).
      rewrite Z1, Z2, Rplus_0_r, rnd_0, Rabs_R0 in L. pose proof (bpow_gt_0 radix2 1024). lra.
  - right; left. exists s'. destruct a, a'; try discriminate; split; reflexivity.
  - right; left. exists s. destruct b, b'; try discriminate; split; reflexivity.
  - destruct s, s'; cbn; [right; left; exists true; split; reflexivity|right; right; split; reflexivity|right; right; split; reflexivity|right; left; exists false; split; reflexivity].
Qed.
Lemma opp_opp a a' : opposite a a' -> opposite (Bopp a) (Bopp a').
Proof.
  intros [(A1 & A2 & A3)|[(s & -> & ->)|[-> ->]]]; [left|right; left; exists (negb s); split; reflexivity|right; right; split; reflexivity].
  rewrite !is_finite_Bopp, !B2R_Bopp. repeat split; try assumption. lra.
Qed.
Lemma opp_sub a a' b b' : opposite a a' -> opposite b b' -> opposite (bfsub a b) (bfsub a' b').
Proof.
  intros [(A1 & A2 & A3)|[(s & -> & ->)|[-> ->]]] [(B1 & B2 & B3)|[(s' & -> & ->)|[-> ->]]];
    try nan_both.
  - pose proof (Bminus_correct 53 1024 pgt plt mode_NE a b A1 B1) as P. pose proof (Bminus_correct 53 1024 pgt plt mode_NE a' b' A2 B2) as P'.
    change (SpecFloat.fexp 53 1024) with fexp64 in *. change (round_mode mode_NE) with ZnearestE in *. change (round radix2 fexp64 ZnearestE) with rnd in *.
    rewrite A3, B3 in P'. replace (- B2R a - - B2R b) with (- (B2R a - B2R b)) in P' by ring. rewrite rnd_opp, Rabs_Ropp in P'.
    destruct (Rlt_bool_spec (Rabs (rnd (B2R a - B2R b))) (bpow radix2 1024)) as [L|L].
    + left. destruct P as (P1 & P2 & _), P' as (P1' & P2' & _). split; [exact P2|]. split; [exact P2'|]. unfold bfsub. rewrite P1, P1'. reflexivity.
    + right; left. destruct P as (P1 & P2), P' as (P1' & P2'). exists (Bsign a). split; [apply sf_inf, P1|]. apply sf_inf. unfold bfsub. rewrite P1'.
      unfold binary_overflow. cbn. f_equal. destruct (Bool.bool_dec (Bsign a') (Bsign a)) as [E|E]; [|destruct (Bsign a'), (Bsign a); try reflexivity; contradiction E; reflexivity].
      exfalso. assert (Z1 : B2R a = 0) by (apply (sign0 a a'); assumption).
      assert (Z2 : B2R b = 0) by (apply (sign0 b b'); try assumption; destruct (Bsign b), (Bsign b'), (Bsign a), (Bsign a'); try reflexivity; discriminate).
      rewrite Z1, Z2, Rminus_0_r, rnd_0, Rabs_R0 in L. pose proof (bpow_gt_0 radix2 1024). lra.
  - right; left. exists (negb s'). destruct a, a'; try discriminate; split; cbn; destruct s'; reflexivity.
  - right; left. exists s. destruct b, b'; try discriminate; split; reflexivity.
  - destruct s, s'; cbn; [right; right; split; reflexivity|right; left; exists true; split; reflexivity|right; left; exists false; split; reflexivity|right; right; split; reflexivity].
Qed.
Lemma zero_cases (a : F) : is_finite a = true -> B2R a = 0 -> exists s, a = B754_zero s.
Proof.
  destruct a as [s|s| |s m e H]; cbn; intros H1 H2; try discriminate; [exists s; reflexivity|]. exfalso.
  destruct s; [pose proof (F2R_lt_0 radix2 (Float radix2 (Z.neg m) e) eq_refl)|pose proof (F2R_gt_0 radix2 (Float radix2 (Z.pos m) e) eq_refl)]; cbn in H2; lra.
Qed.
Lemma pos_cases (a : F) : is_finite a = true -> B2R a <> 0 -> exists s m e H, a = B754_finite s m e H.
Proof. destruct a as [s|s| |s m e H]; cbn; intros H1 H2; try discriminate; [contradiction H2; reflexivity|]. exists s, m, e, H. reflexivity. Qed.
Lemma fin_nz s m e H : B2R (B754_finite s m e H : F) <> 0.
Proof. intros E. destruct (zero_cases (B754_finite s m e H) eq_refl E) as [s' E']. discriminate. Qed.
Lemma opp_mul a a' b : opposite a a' -> opposite (bfmul a b) (bfmul a' b).
Proof.
  intros [(A1 & A2 & A3)|[(s & -> & ->)|[-> ->]]]; [|destruct b; cbn; try (right; right; split; reflexivity); (right; left; eexists; split; [reflexivity|destruct s, s0; reflexivity])|right; right; split; reflexivity].
  destruct (is_finite b) eqn:B1.
  - pose proof (Bmult_correct 53 1024 pgt plt mode_NE a b) as P. pose proof (Bmult_correct 53 1024 pgt plt mode_NE a' b) as P'.
    change (SpecFloat.fexp 53 1024) with fexp64 in *. change (round_mode mode_NE) with ZnearestE in *. change (round radix2 fexp64 ZnearestE) with rnd in *.
    rewrite A3 in P'. replace (- B2R a * B2R b) with (- (B2R a * B2R b)) in P' by ring. rewrite rnd_opp, Rabs_Ropp in P'.
    destruct (Rlt_bool_spec (Rabs (rnd (B2R a * B2R b))) (bpow radix2 1024)) as [L|L].
    + left. destruct P as (P1 & P2 & _), P' as (P1' & P2' & _). rewrite A1, B1 in P2. rewrite A2, B1 in P2'. split; [exact P2|]. split; [exact P2'|]. unfold bfmul. rewrite P1, P1'. reflexivity.
    + right; left. exists (xorb (Bsign a) (Bsign b)). split; [apply sf_inf, P|]. apply sf_inf. unfold bfmul. rewrite P'. unfold binary_overflow. cbn. f_equal.
      rewrite (sign_neg a a' A1 A2 A3); [destruct (Bsign a), (Bsign b); reflexivity|]. intros Z. rewrite Z, Rmult_0_l, rnd_0, Rabs_R0 in L. pose proof (bpow_gt_0 radix2 1024). lra.
  - destruct b as [sb|sb| |sb mb eb Hb]; try discriminate; [|right; right; split; [destruct a|destruct a']; reflexivity].
    destruct (Req_dec (B2R a) 0) as [Z|Z].
    + assert (Z' : B2R a' = 0) by lra. destruct (zero_cases a A1 Z) as [s ->], (zero_cases a' A2 Z') as [s' ->]. right; right; split; reflexivity.
    + assert (Z' : B2R a' <> 0) by lra. pose proof (sign_neg a a' A1 A2 A3 Z) as Sg. destruct (pos_cases a A1 Z) as (s & m & e & H & ->), (pos_cases a' A2 Z') as (s' & m' & e' & H' & ->).
      cbn in Sg. subst s'. right; left. exists (xorb s sb). split; [reflexivity|]. destruct s, sb; reflexivity.
Qed.
Lemma opp_mulr a a' b : opposite a a' -> opposite (bfmul b a) (bfmul b a').
Proof.
  intros [(A1 & A2 & A3)|[(s & -> & ->)|[-> ->]]]; [|destruct b; cbn; try (right; right; split; reflexivity); (right; left; eexists; split; [reflexivity|destruct s, s0; reflexivity])|right; right; split; destruct b; reflexivity].
  destruct (is_finite b) eqn:B1.
  - pose proof (Bmult_correct 53 1024 pgt plt mode_NE b a) as P. pose proof (Bmult_correct 53 1024 pgt plt mode_NE b a') as P'.
    change (SpecFloat.fexp 53 1024) with fexp64 in *. change (round_mode mode_NE) with ZnearestE in *. change (round radix2 fexp64 ZnearestE) with rnd in *.
    rewrite A3 in P'. replace (B2R b * - B2R a) with (- (B2R b * B2R a)) in P' by ring. rewrite rnd_opp, Rabs_Ropp in P'.
    destruct (Rlt_bool_spec (Rabs (rnd (B2R b * B2R a))) (bpow radix2 1024)) as [L|L].
    + left. destruct P as (P1 & P2 & _), P' as (P1' & P2' & _). rewrite A1, B1 in P2. rewrite A2, B1 in P2'. split; [exact P2|]. split; [exact P2'|]. unfold bfmul. rewrite P1, P1'. reflexivity.
    + right; left. exists (xorb (Bsign b) (Bsign a)). split; [apply sf_inf, P|]. apply sf_inf. unfold bfmul. rewrite P'. unfold binary_overflow. cbn. f_equal.
      rewrite (sign_neg a a' A1 A2 A3); [destruct (Bsign a), (Bsign b); reflexivity|]. intros Z. rewrite Z, Rmult_0_r, rnd_0, Rabs_R0 in L. pose proof (bpow_gt_0 radix2 1024). lra.
  - destruct b as [sb|sb| |sb mb eb Hb]; try discriminate; [|right; right; split; reflexivity].
    destruct (Req_dec (B2R a) 0) as [Z|Z].
    + assert (Z' : B2R a' = 0) by lra. destruct (zero_cases a A1 Z) as [s ->], (zero_cases a' A2 Z') as [s' ->]. right; right; split; reflexivity.
    + assert (Z' : B2R a' <> 0) by lra. pose proof (sign_neg a a' A1 A2 A3 Z) as Sg. destruct (pos_cases a A1 Z) as (s & m & e & H & ->), (pos_cases a' A2 Z') as (s' & m' & e' & H' & ->).
      cbn in Sg. subst s'. right; left. exists (xorb sb s). split; [reflexivity|]. destruct s, sb; reflexivity.
Qed.
Lemma opp_div a a' b : opposite a a' -> opposite (bfdiv a b) (bfdiv a' b).
Proof.
  intros [(A1 & A2 & A3)|[(s & -> & ->)|[-> ->]]]; [|destruct b; cbn; try (right; right; split; reflexivity); (right; left; eexists; split; [reflexivity|destruct s, s0; reflexivity])|right; right; split; reflexivity].
  destruct b as [sb|sb| |sb mb eb Hb].
  - destruct (Req_dec (B2R a) 0) as [Z|Z].
    + assert (Z' : B2R a' = 0) by lra. destruct (zero_cases a A1 Z) as [s ->], (zero_cases a' A2 Z') as [s' ->]. right; right; split; reflexivity.
    + assert (Z' : B2R a' <> 0) by lra. pose proof (sign_neg a a' A1 A2 A3 Z) as Sg. destruct (pos_cases a A1 Z) as (s & m & e & H & ->), (pos_cases a' A2 Z') as (s' & m' & e' & H' & ->).
      cbn in Sg. subst s'. right; left. exists (xorb s sb). split; [reflexivity|]. destruct s, sb; reflexivity.
  - left. destruct a, a'; try discriminate; cbn; repeat split; lra.
  - right; right; split; [destruct a|destruct a']; reflexivity.
  - set (b := B754_finite sb mb eb Hb : F) in *. assert (B1 : B2R b <> 0) by apply fin_nz.
    pose proof (Bdiv_correct 53 1024 pgt plt mode_NE a b B1) as P. pose proof (Bdiv_correct 53 1024 pgt plt mode_NE a' b B1) as P'.
    change (SpecFloat.fexp 53 1024) with fexp64 in *. change (round_mode mode_NE) with ZnearestE in *. change (round radix2 fexp64 ZnearestE) with rnd in *.
    rewrite A3 in P'. replace (- B2R a / B2R b) with (- (B2R a / B2R b)) in P' by (field; exact B1). rewrite rnd_opp, Rabs_Ropp in P'.
    destruct (Rlt_bool_spec (Rabs (rnd (B2R a / B2R b))) (bpow radix2 1024)) as [L|L].
    + left. destruct P as (P1 & P2 & _), P' as (P1' & P2' & _). rewrite A1 in P2. rewrite A2 in P2'. split; [exact P2|]. split; [exact P2'|]. unfold bfdiv. rewrite P1, P1'. reflexivity.
    + right; left. exists (xorb (Bsign a) (Bsign b)). split; [apply sf_inf, P|]. apply sf_inf. unfold bfdiv. rewrite P'. unfold binary_overflow. cbn -[b]. f_equal.
      rewrite (sign_neg a a' A1 A2 A3); [destruct (Bsign a), (Bsign b); reflexivity|]. intros Z. rewrite Z in L. unfold Rdiv in L. rewrite Rmult_0_l, rnd_0, Rabs_R0 in L. pose proof (bpow_gt_0 radix2 1024). lra.
Qed.
Lemma fme00 : fme 0 0 = B754_zero false :> F.
Proof. reflexivity. Qed.
Lemma opposite_multiple (L : mlib) : @multiple (FN L) opposite.
Proof.
  constructor.
  - left. cbn. repeat split; lra.
  - right; right; split; reflexivity.
  - exact opp_add.
  - exact opp_sub.
  - exact opp_opp.
  - exact opp_mul.
  - exact opp_mulr.
  - exact opp_div.
  - intros r. change (opposite (bfmul r (B754_zero false)) (bfmul r (B754_zero false))). destruct r as [s|s| |s m e H]; [left|right; right|right; right|left]; repeat split; cbn; lra.
  - intros a a' [(A1 & A2 & A3)|[(s & -> & ->)|[-> ->]]]; [|destruct s; reflexivity|reflexivity].
    change (Beqb a' (B754_zero false) = Beqb a (B754_zero false)). rewrite !Beqb_correct by (assumption || reflexivity). rewrite A3. cbn [B2R].
    destruct (Req_bool_spec (- B2R a) 0), (Req_bool_spec (B2R a) 0); try reflexivity; lra.
  - intros a a' [(A1 & A2 & A3)|[(s & -> & ->)|[-> ->]]]; [|destruct s; reflexivity|reflexivity].
    change (Bltb (B754_zero false) (Babs a') = Bltb (B754_zero false) (Babs a)). rewrite !Bltb_correct by (rewrite ?is_finite_Babs; assumption || reflexivity).
    rewrite !B2R_Babs, A3, Rabs_Ropp. reflexivity.
Qed.
Lemma opposite_opp (a : F) : opposite a (Bopp a).
Proof.
  destruct a as [s|s| |s m e H]; [left; cbn; repeat split; lra|right; left; exists s; split; reflexivity|right; right; split; reflexivity|].
  left. rewrite is_finite_Bopp, B2R_Bopp. repeat split; reflexivity.
Qed.
(** componentwise opposite velocities, at every point; the same error *)
Definition opposite3 (p q : F * F * F) : Prop := let '(a, b, c) := p in let '(a', b', c') := q in opposite a a' /\ opposite b b' /\ opposite c c'.
Definition opposite_results (r r' : result (list (F * F * F))) : Prop :=
  match r, r' with Ok us, Ok us' => Forall2 opposite3 us us' | Err e, Err e' => e = e' | _, _ => False end.
Theorem C152_opposite_binary64 : forall (L : mlib) (t : turbine (FN L)) (o : opts (FN L)) pts, o_only_ind o = true ->
  fst (compute_u (with_vorticity (N := FN L) (@Bopp 53 1024) t) o pts) = with_vorticity (N := FN L) (@Bopp 53 1024) (fst (compute_u t o pts)) /\
  opposite_results (snd (compute_u t o pts)) (snd (compute_u (with_vorticity (N := FN L) (@Bopp 53 1024) t) o pts)).
Proof. intros L t o pts HI. exact (H_compute (N := FN L) opposite (opposite_multiple L) (@Bopp 53 1024) opposite_opp t o pts HI). Qed.
Theorem C152_opposite_farm_binary64 : forall (L : mlib) (h : heap (FN L)) (F : farm) (o : opts (FN L)) pts,
  let h' := map (obj_with (N := FN L) (@Bopp 53 1024)) h in
  fst (velocity_field h' F o None pts) = map (obj_with (N := FN L) (@Bopp 53 1024)) (fst (velocity_field h F o None pts)) /\
  opposite_results (snd (velocity_field h F o None pts)) (snd (velocity_field h' F o None pts)).
Proof. intros L h F o pts. exact (H_farm (N := FN L) opposite (opposite_multiple L) (@Bopp 53 1024) opposite_opp h F o pts). Qed.

(** ** Examples: velocities that are not zero *)
Definition ex_hom : turbine XN := set_chi (set_gt (new_turbine (N := XN) (Fin 2) (lift3 (1, 0, 80)) (lift3 (1, 0, 0)) (lift3 (0, 0, 1)) (lift3 (8, 0, 0)) None None "" false "VC") (Some [Fin (-2)])) (Fin 0).
Definition tang_opts {N : Num} : opts N := {| o_only_ind := true; o_longi := false; o_tang := true; o_root := false; o_no_wake := false; o_ground := None; o_Model := None; o_far := nZ N 6 |}.
Example C152_nonvacuous :
  (o_only_ind (N := XN) tang_opts = true /\ snd (compute_u ex_hom tang_opts [lift3 (1, 0, 80)]) = Ok [lift3 (-1, 0, 0)]) /\
  (o_only_ind (with_only_ind true (default_opts (N := FN lib0))) = true /\ exists u v w : F, snd (compute_u (turb64 2 0) (with_only_ind true default_opts) at_hub) = Ok [(u, v, w)] /\ is64 u 1).
Proof.
  split; [split; [reflexivity|]|].
  - set (M := ((0, 0, 1), (1, 0, 0), (0, 1, 0)) : R3 * R3 * R3). assert (EM : T_c2g ex_hom = liftM M).
    { change (T_c2g ex_hom) with (T_c2g (ex_swirl 0)). apply ex_c2g. }
    assert (EH : shift (transform_T (liftM M) (lift3 (1, 0, 80))) (transform_T (liftM M) (lift3 (1, 0, 80))) = lift3 (0, 0, 0)).
    { rewrite !transform_T_lift, shift_lift. f_equal. unfold sub3, px, py, pz; cbn. repeat f_equal; ring. }
    assert (EK : vc_tang_u (N := XN) (Fin (-2)) (Fin 2) (Fin 0) [lift3 (0, 0, 0)] = [lift3 (0, 0, -1)]).
    { assert (S0 : sqrt (0 * 0 + 0 * 0) = 0) by (replace (0 * 0 + 0 * 0) with 0 by ring; apply sqrt_0). set (pts := [lift3 (0, 0, 0)]).
      assert (EL : len (vc_tang_u (N := XN) (Fin (-2)) (Fin 2) (Fin 0) pts) = 1%nat) by (rewrite vc_tang_u_length; reflexivity).
      assert (RR : vc_r (N := XN) (lift3 (0, 0, 0)) = Fin 0).
      { unfold vc_r, lift3, px, py, pz. cbn. unfold xsqrt. rewrite S0. destruct (Rltb_spec (0 * 0 + 0 * 0) 0); [lra|reflexivity]. }
      assert (A : vc_isaxis (N := XN) (Fin 2) (vc_r (lift3 (0, 0, 0))) = true).
      { rewrite RR. unfold vc_isaxis, EPS_AXIS. cbn. rewrite ?xdiv_fin by lra. cbn. apply Rltb_true. lra. }
      assert (B : vc_isrim (N := XN) (Fin 2) (vc_r (lift3 (0, 0, 0))) (Fin 0) = false).
      { rewrite RR. unfold vc_isrim. apply andb_false_intro1. cbn. destruct (Reqb_spec 2 0) as [E2|E2]; [lra|]. apply Rltb_false. replace (0 - 2) with (- (2)) by ring. rewrite Rabs_Ropp, Rabs_pos_eq; lra. }
      pose proof (axis_nth XN (Fin (-2)) (Fin 2) (Fin 0) pts 0 (lift3 (0, 0, 0)) eq_refl A B) as EN.
      destruct (vc_tang_u (N := XN) (Fin (-2)) (Fin 2) (Fin 0) pts) as [|w [|w' l]]; try discriminate EL. cbn [nth_error] in EN. injection EN as ->. f_equal.
      clear EL EM EH. unfold cart_of_polar2, lift3, px, py, pz. cbn [fst snd]. unfold vc_axis_uz. cbn.
      assert (S2 : sqrt (0 * 0 + 2 * 2) = 2) by (replace (0 * 0 + 2 * 2) with (2 * 2) by ring; apply sqrt_square; lra). rewrite S2.
      destruct (Rltb_spec (0 * 0 + 2 * 2) 0); [lra|]. destruct (Reqb_spec 2 0); [lra|]. cbn. apply pt_eq; f_equal; field. }
    unfold compute_u. rewrite EM. cbn [snd tang_opts o_ground o_Model o_only_ind o_no_wake map].
    change (t_rhub ex_hom) with (lift3 (1, 0, 80)). unfold ylist. cbn [map]. rewrite EH.
    change (t_ground ex_hom) with false. cbn [List.app]. change (chi_now ex_hom) with (Fin 0 : XN). change (t_gt ex_hom) with (Some [Fin (-2)] : option (list XN)). change (t_model ex_hom) with "VC"%string.
    unfold cu_root. cbn [tang_opts o_root bind]. unfold cu_single. cbn [fold_left bind tang_opts o_tang o_longi]. unfold gl_active1, cu_tang1. cbn [negb andb].
    assert (SK : skewed (N := XN) (Fin 0) = false) by (unfold skewed; cbn; apply Rltb_false; rewrite Rabs_R0; lra). rewrite SK.
    assert (NE : neqb XN (Fin (-2)) (nZ XN 0) = false) by (apply Reqb_false; lra). rewrite NE. cbn [negb String.eqb Ascii.eqb Bool.eqb bind].
    change (t_R ex_hom) with (Fin 2 : XN). change (nZ XN 0) with (Fin 0 : XN). rewrite EK. cbn [bind]. unfold fzero, fadd. cbn [map map2].
    assert (EV : vadd (N := XN) (nZ XN 0, nZ XN 0, nZ XN 0) (lift3 (0, 0, -1)) = lift3 (0, 0, -1)) by (unfold lift3, px, py, pz; cbn; apply pt_eq; f_equal; ring).
    rewrite EV, transform_lift. do 2 f_equal. f_equal. unfold M, px, py, pz; cbn. unfold px, py, pz; cbn. repeat f_equal; ring.
  - split; [reflexivity|]. assert (A : shown AX 0 (snd (compute_u (turb64 2 0) (with_only_ind true default_opts) at_hub)) = Some (SpecFloat.S754_finite false 4503599627370496 (-52))) by (vm_compute; reflexivity).
    destruct (shown_is _ _ _ _ _ _ A) as (us & A1 & A2 & A3). pose proof (compute_u_length (N := FN lib0) _ _ _ _ A1) as LL. destruct us as [|[[a b] c] [|? ?]]; try discriminate LL.
    exists a, b, c. split; [exact A1|]. cbn in A3. replace 1 with (IZR (cond_Zopp false (Z.pos 4503599627370496)) * bpow radix2 (-52)); [exact A3|].
    cbn. field.
Qed.
