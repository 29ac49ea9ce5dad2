(** * The ground is exactly impermeable in binary64 arithmetic: C139 *)
From Coquelicot Require Import Coquelicot.
From Coq Require Import Reals ZArith Lra Lia List Bool String.
From Flocq Require Import Core BinarySingleNaN.
From Verif Require Import Num NumR NumF M_Elliptic M_Cylinder M_Solver M_Turbine M_Farm L_List L_Ell L_Turbine L_State L_Farm P_Farm P_FloatYaw P_FloatAxis P_FloatSheet P_FloatChain.
Import ListNotations.
Local Open Scope R_scope.
Local Notation len := List.length.

(** ** Changing the sign of a factor *)
Lemma bra_opp s m e l : binary_round_aux 53 1024 mode_NE (negb s) m e l = SpecFloat.SFopp (binary_round_aux 53 1024 mode_NE s m e l).
Proof.
  unfold binary_round_aux. destruct (SpecFloat.shr_fexp 53 1024 m e l) as [a b]. cbn [choice_mode].
  destruct (SpecFloat.shr_fexp 53 1024 _ b SpecFloat.loc_Exact) as [c d]. destruct (SpecFloat.shr_m c); [reflexivity| |reflexivity].
  unfold binary_fit_aux. destruct (d <=? 1024 - 53)%Z; reflexivity.
Qed.
Lemma B2SF_Bopp (a : F) : B2SF (Bopp a) = SpecFloat.SFopp (B2SF a).
Proof. destruct a; reflexivity. Qed.
Lemma mul_opp_r (a b : F) : bfmul a (Bopp b) = Bopp (bfmul a b).
Proof.
  destruct a as [s|s| |s m e H], b as [s'|s'| |s' m' e' H']; cbn [Bopp]; unfold bfmul; cbn [Bmult Bopp]; try reflexivity; try (destruct s, s'; reflexivity).
  apply B2SF_inj. rewrite B2SF_Bopp. cbn [Bmult]. rewrite !B2SF_SF2B. rewrite <- bra_opp. f_equal. destruct s, s'; reflexivity.
Qed.
Lemma mul_opp_l (a b : F) : bfmul (Bopp a) b = Bopp (bfmul a b).
Proof.
  destruct a as [s|s| |s m e H], b as [s'|s'| |s' m' e' H']; cbn [Bopp]; unfold bfmul; cbn [Bmult Bopp]; try reflexivity; try (destruct s, s'; reflexivity).
  apply B2SF_inj. rewrite B2SF_Bopp. cbn [Bmult]. rewrite !B2SF_SF2B. rewrite <- bra_opp. f_equal. destruct s, s'; reflexivity.
Qed.
Lemma mul_opp_opp (a : F) : bfmul (Bopp a) (Bopp a) = bfmul a a.
Proof. rewrite mul_opp_l, mul_opp_r. apply Bopp_involutive. Qed.
Lemma fmt_double x : fmt x -> fmt (2 * x).
Proof.
  intros H. apply FLT_format_generic in H; [|reflexivity]. destruct H as [[m e] E H1 H2]. apply generic_format_FLT. exists (Float radix2 m (e + 1)); cbn [Fnum Fexp] in *.
  - rewrite E. unfold F2R. cbn [Fnum Fexp]. rewrite bpow_plus. change (bpow radix2 1) with 2. ring.
  - exact H1.
  - lia.
Qed.
(** a nonzero number has one float *)
Lemma is64_inj a b x : is64 a x -> is64 b x -> x <> 0 -> a = b.
Proof.
  intros [A A'] [B B'] H. apply B2R_inj; [| |congruence].
  - destruct a; try discriminate; cbn in *; [congruence|reflexivity].
  - destruct b; try discriminate; cbn in *; [congruence|reflexivity].
Qed.
(** ** Floats that are a given number or NaN *)
Definition nan_or (a : F) (x : R) : Prop := a = B754_nan \/ is64 a x.
Lemma nan_add a b x y : nan_or a x -> nan_or b y -> x = 0 \/ y = 0 -> nan_or (bfadd a b) (x + y).
Proof.
  assert (NR : forall c : F, bfadd c B754_nan = B754_nan) by (intros [s|s| |s m e H]; reflexivity).
  intros [-> |A] [-> |B] H; [left; reflexivity|left; destruct b; reflexivity|left; apply NR|].
  right. destruct H as [-> | ->]; [rewrite Rplus_0_l; apply add_l0; auto|rewrite Rplus_0_r; apply add_r0; auto].
Qed.
Lemma nan_mul a b y : is64 a y -> nan_or b 0 -> nan_or (bfmul a b) 0.
Proof. intros A [-> |B]; [left; unfold bfmul; destruct a; reflexivity|right; eapply mul_r0; eauto]. Qed.
Lemma nan_mul0 a (b : F) : is64 a 0 -> nan_or (bfmul a b) 0.
Proof.
  intros A. destruct (is_finite b) eqn:E; [right; eapply mul_l0; [exact A|split; [exact E|reflexivity]]|].
  left. destruct A as [A A']. destruct a as [s|s| |s m e H]; try discriminate A; [destruct b; try discriminate E; reflexivity|].
  exfalso. cbn [B2R] in A'. apply (f_equal Rabs) in A'. rewrite Rabs_R0 in A'. revert A'. apply Rgt_not_eq. apply Rabs_pos_lt. apply F2R_neq_0. destruct s; discriminate.
Qed.
Lemma add_opp (z a : F) : is64 z 0 -> nan_or (bfadd (bfadd z a) (Bopp a)) 0.
Proof.
  intros Z. destruct (is_finite a) eqn:E.
  - right. assert (A : is64 a (B2R a)) by (split; auto). pose proof (add_l0 _ _ _ Z A) as S. apply (add64' _ _ _ _ 0 S (opp64 _ _ A)); [ring|apply fmt_0|rewrite Rabs_R0; apply bpow_gt_0].
  - left. destruct Z as [Z Z']. destruct z as [s|s| |s m e H]; try discriminate Z; destruct a as [s'|s'| |s' m' e' H']; try discriminate E; try reflexivity; destruct s'; reflexivity.
Qed.
(** ** A vertical frame *)
(** the library: finite sine and cosine, the cosine between -1 and 1; sin(arctan2(-y,x)) = -sin(arctan2(y,x)) *)
Definition odd_trig (L : mlib) : Prop :=
  (forall a x, is64 a x -> exists c s, is64 (l_cos L a) c /\ is64 (l_sin L a) s /\ -1 <= c <= 1) /\
  (forall y v x, is64 y v -> v <> 0 -> l_sin L (l_atan2 L (Bopp y) x) = Bopp (l_sin L (l_atan2 L y x))).
(** a horizontal direction *)
Definition level (d : F * F * F) : Prop := let '(x, y, z) := d in is_finite x = true /\ is_finite y = true /\ is64 z 0.
(** a point of the ground *)
Definition on_ground (p : F * F * F) : Prop := level p.
(** a position above (or below) the ground *)
Definition hub_ok (p : F * F * F) : Prop := let '(x, y, z) := p in is_finite x = true /\ is_finite y = true /\ exists h, is64 z h /\ h <> 0 /\ rg 100 h.
Lemma fin64 (a : F) : is_finite a = true -> is64 a (B2R a).
Proof. intros H. split; auto. Qed.
Section Ground.
  Context (L : mlib).
  Notation FL := (FN L).
  Definition upright (M : (F * F * F) * (F * F * F) * (F * F * F)) (mu : R) : Prop :=
    let '((a, b, c), (d, e, f), (g, h, i)) := M in is64 b 0 /\ is64 e 0 /\ is64 g 0 /\ is64 h mu /\ is64 i 0 /\ / 2 <= mu <= 2.
  Lemma frame_up (yaw : F) Y sh : odd_trig L -> is64 yaw Y -> level sh ->
    exists mu, upright (mmul (N := FL) (RotMat_AxisAngle (N := FL) e3 yaw) (mcols (N := FL) (cross (N := FL) e3 sh) e3 sh)) mu.
  Proof.
    intros [T _] HY HS. destruct (T _ _ HY) as (C & S & HC & HSi & BC). destruct sh as [[sx sy] sz]. destruct HS as (S1 & S2 & S3).
    apply fin64 in S1, S2. set (X1 := B2R sx) in *. set (X2 := B2R sy) in *. clearbody X1 X2.
    pose proof (Z64 0 ltac:(reflexivity)) as Z0. pose proof (Z64 1 ltac:(reflexivity)) as O1.
    assert (B2 : Rabs (1 - C) <= 2) by (apply Rabs_le; lra).
    pose proof (sub64 _ _ _ _ O1 HC (small2 _ B2)) as HD. set (D := rnd (1 - C)) in *.
    assert (DN : near (4 * u53) D (1 - C)) by (apply rnd_err2; auto). apply near_I in DN.
    assert (U1 : u53 <= / 1000) by (unfold u53; lra). pose proof u53_pos as U0.
    assert (B3 : Rabs (D + C) <= 2) by (apply Rabs_le; lra).
    assert (EN : near (4 * u53) (rnd (D + C)) (D + C)) by (apply rnd_err2; auto). apply near_I in EN.
    set (c := l_cos L yaw) in *. set (s := l_sin L yaw) in *. set (z := fme 0 0) in *. set (o := fme 1 0) in *. set (d := bfsub o c) in *.
    assert (R22 : is64 (bfadd (bfmul (bfmul o o) d) c) (rnd (D + C))). { apply add64; [|exact HC|apply small2; auto]. apply mul_l1; [|exact HD]. apply mul_l1; auto. }
    assert (ZZ : is64 (bfmul (bfmul z z) d) 0) by (eapply mul_l0; [eapply mul_l0; eauto|eauto]).
    assert (ZO : is64 (bfmul (bfmul z o) d) 0) by (eapply mul_l0; [eapply mul_l0; eauto|eauto]).
    assert (OZ : is64 (bfmul (bfmul o z) d) 0) by (eapply mul_l0; [eapply mul_r0; eauto|eauto]).
    assert (ZS : is64 (bfmul z s) 0) by (eapply mul_l0; eauto). pose proof (mul_l1 _ _ _ O1 HSi) as OS.
    assert (R00 : is64 (bfadd (bfmul (bfmul z z) d) c) C) by (apply add_l0; auto).
    assert (R01 : is64 (bfsub (bfmul (bfmul z z) d) (bfmul o s)) (- S)).
    { apply (sub64' _ _ _ _ (- S) ZZ OS); [ring|apply fmt_opp; eapply is64_fmt; exact OS|rewrite Rabs_Ropp; eapply is64_big; exact OS]. }
    assert (R02 : is64 (bfadd (bfmul (bfmul z o) d) (bfmul z s)) 0) by (apply add_l0; auto).
    assert (R10 : is64 (bfadd (bfmul (bfmul z z) d) (bfmul o s)) S) by (apply add_l0; auto).
    assert (R12 : is64 (bfsub (bfmul (bfmul z o) d) (bfmul z s)) 0) by (apply sub_r0; auto).
    assert (R20 : is64 (bfsub (bfmul (bfmul o z) d) (bfmul z s)) 0) by (apply sub_r0; auto).
    assert (R21 : is64 (bfadd (bfmul (bfmul o z) d) (bfmul z s)) 0) by (apply add_l0; auto).
    (* cross e3 sh *)
    assert (C0 : is64 (bfsub (bfmul z sz) (bfmul o sy)) (- X2)).
    { pose proof (mul_l1 _ _ _ O1 S2) as OY. apply (sub64' _ _ _ _ (- X2) (mul_l0 _ _ _ Z0 S3) OY); [ring|apply fmt_opp; eapply is64_fmt; exact OY|rewrite Rabs_Ropp; eapply is64_big; exact OY]. }
    assert (C1 : is64 (bfsub (bfmul o sx) (bfmul z sz)) X1) by (apply sub_r0; [apply mul_l1; auto|eapply mul_l0; eauto]).
    assert (C2 : is64 (bfsub (bfmul z sy) (bfmul z sx)) 0) by (apply sub_r0; eapply mul_l0; eauto).
    exists (rnd (D + C)). cbn [upright mmul mcols mtr RotMat_AxisAngle e3 cross dot]. unfold upright, mmul, mcols, mtr, RotMat_AxisAngle, e3, cross, dot. fold z o.
    change (ncos FL yaw) with c. change (nsin FL yaw) with s. change (nZ FL 1) with o. change (nsub FL o c) with d.
    split; [|split; [|split; [|split; [|split]]]].
    - apply add_r0; [|apply mul_r1; [exact R02|exact O1]]. apply add_r0; [eapply mul_r0; [exact R00|exact Z0]|eapply mul_r0; [exact R01|exact Z0]].
    - apply add_r0; [|apply mul_r1; [exact R12|exact O1]]. apply add_r0; [eapply mul_r0; [exact R10|exact Z0]|eapply mul_r0; [exact R00|exact Z0]].
    - apply add_r0; [|eapply mul_r0; [exact R22|exact C2]]. apply add_r0; [eapply mul_l0; [exact R20|exact C0]|eapply mul_l0; [exact R21|exact C1]].
    - apply add_l0; [|apply mul_r1; [exact R22|exact O1]]. apply add_r0; [eapply mul_l0; [exact R20|exact Z0]|eapply mul_l0; [exact R21|exact Z0]].
    - apply add_r0; [|eapply mul_r0; [exact R22|exact S3]]. apply add_r0; [eapply mul_l0; [exact R20|exact S1]|eapply mul_l0; [exact R21|exact S2]].
    - lra.
  Qed.
  (** heights in the frame of the cylinder *)
  Lemma height_T M mu (x y z : F) v : upright M mu -> is_finite x = true -> is_finite y = true -> is64 z v -> rg 100 v ->
    exists p q r h, transform_T (N := FL) M (x, y, z) = (p, q, r) /\ is64 q h /\ rg 102 h /\ (v = 0 -> h = 0) /\ (v <> 0 -> h <> 0).
  Proof.
    destruct M as [[[[m1 m2] m3] [[m4 m5] m6]] [[m7 m8] m9]]. intros (B & E & G & H & I & HM) X Y Z GV. apply fin64 in X, Y.
    assert (GM : rg 1 mu) by (right; rewrite Rabs_pos_eq by lra; change (bpow radix2 (- (1))) with (/ 2); change (bpow radix2 1) with 2; lra).
    destruct (mul_rel 101 _ _ _ _ ltac:(lia) H Z (rg_mul 1 100 _ _ GM GV)) as (t & T & HT). pose proof (fac_pos _ _ T) as Pt.
    eexists _, _, _, (mu * v * t). split; [reflexivity|]. split; [|split; [|split]].
    - apply add_l0; [|exact HT]. apply add_r0; [eapply mul_l0; eauto|eapply mul_l0; eauto].
    - apply (rg_fac 1 101); [lia|exact (rg_mul 1 100 _ _ GM GV)|exact T].
    - intros ->. ring.
    - intros Hv. apply Rmult_integral_contrapositive_currified; [|lra]. apply Rmult_integral_contrapositive_currified; [lra|auto].
  Qed.
  Definition flip (p : F * F * F) : F * F * F := let '(x, y, z) := p in (x, Bopp y, z).
  Lemma flip_r p : vc_r (N := FL) (flip p) = vc_r (N := FL) p.
  Proof. destruct p as [[x y] z]. cbn. unfold sq. cbn. change (nmul FL) with bfmul. rewrite mul_opp_opp. reflexivity. Qed.
  Lemma polar_flip g R Y : vc_tang_polar (N := FL) g R (nZ FL 0) (map flip Y) = vc_tang_polar (N := FL) g R (nZ FL 0) Y.
  Proof.
    unfold vc_tang_polar, vc_tang_polar_gen. assert (E : map (fun p => (vc_r (N := FL) p, snd p)) (map flip Y) = map (fun p => (vc_r (N := FL) p, snd p)) Y).
    { rewrite map_map. apply map_ext. intros p. rewrite flip_r. destruct p as [[x y] z]. reflexivity. }
    rewrite E. reflexivity.
  Qed.
  (** the point relative to the hub and to its image *)
  Lemma mirror_flip M mu hub p : upright M mu -> hub_ok hub -> on_ground p ->
    let c := transform_T (N := FL) M hub in let q := shift (N := FL) c (transform_T (N := FL) M p) in
    mirror_pt (N := FL) (snd (fst c)) q = flip q /\ exists v, is64 (snd (fst q)) v /\ v <> 0.
  Proof.
    intros HM HH HP c q. destruct hub as [[hx hy] hz], p as [[x y] z]. destruct HH as (H1 & H2 & h & H3 & H4 & H5). destruct HP as (P1 & P2 & P3).
    destruct (height_T M mu hx hy hz h HM H1 H2 H3 H5) as (c1 & c2 & c3 & k & EC & C2 & GK & _ & NK). specialize (NK H4).
    destruct (height_T M mu x y z 0 HM P1 P2 P3) as (q1 & q2 & q3 & k0 & EQ & Q2 & _ & K0 & _); [left; reflexivity|]. specialize (K0 eq_refl). subst k0.
    unfold q, c. rewrite EC, EQ. cbn [shift mirror_pt flip fst snd].
    assert (IY : is64 (bfsub q2 c2) (- k)). { apply (sub64' _ _ _ _ (- k) Q2 C2); [ring|apply fmt_opp; eapply is64_fmt; exact C2|rewrite Rabs_Ropp; eapply is64_big; exact C2]. }
    split.
    - f_equal. f_equal. change (bfadd (bfsub q2 c2) (bfmul (fme 2 0) c2) = Bopp (bfsub q2 c2)). apply (is64_inj _ _ k); [| |auto].
      + pose proof (Z64 2 ltac:(reflexivity)) as T2.
        assert (I2 : is64 (bfmul (fme 2 0) c2) (2 * k)).
        { apply (mul64' _ _ _ _ (2 * k) T2 C2); [reflexivity| |].
          - apply fmt_double. eapply is64_fmt; exact C2.
          - rewrite Rabs_mult, (Rabs_pos_eq 2) by lra. destruct GK as [-> |[_ GK]]; [rewrite Rabs_R0, Rmult_0_r; apply bpow_gt_0|].
            apply Rle_lt_trans with (bpow radix2 (1 + 102)); [rewrite bpow_plus; change (bpow radix2 1) with 2; lra|apply bpow_lt; lia]. }
        apply (add64' _ _ _ _ k IY I2); [ring|eapply is64_fmt; exact C2|eapply is64_big; exact C2].
      + replace k with (- - k) by ring. apply opp64. exact IY.
    - exists (- k). split; [exact IY|lra].
  Qed.
  Lemma map2_nth {A B C} (f : A -> B -> C) : forall l l' i a b, nth_error l i = Some a -> nth_error l' i = Some b -> nth_error (map2 f l l') i = Some (f a b).
  Proof. induction l as [|x l IH]; intros [|y l'] [|i] a b H H'; try discriminate; cbn in *; [injection H as ->; injection H' as ->; reflexivity|eauto]. Qed.
  (** the horizontal options of compute_u: tangential vorticity of one cylinder, with the ground *)
  Definition tang_ground (t : turbine FL) (o : opts FL) : Prop :=
    o_tang o = true /\ o_longi o = false /\ o_root o = false /\ o_no_wake o = false /\
    match o_ground o with Some g => g | None => t_ground t end = true /\ match o_Model o with Some m => m | None => t_model t end = "VC"%string.
  Lemma ground_nth (t : turbine FL) (g : F) o pts i p : odd_trig L -> t_gt t = Some [g] -> tang_ground t o -> skewed (N := FL) (chi_now t) = false ->
    (exists mu, upright (T_c2g (N := FL) t) mu) -> hub_ok (t_rhub t) -> Forall on_ground pts -> nth_error pts i = Some p ->
    exists us w, snd (compute_u t o pts) = Ok us /\ nth_error us i = Some (if o_only_ind o then w else vadd (N := FL) w (t_U0 t)) /\ nan_or (snd w) 0.
  Proof.
    intros [_ HO] G (O1 & O2 & O3 & O4 & O5 & O6) Sk (mu & HM) HH HP Hi. unfold compute_u. cbn [snd]. rewrite G, O5, O6. unfold cu_root. rewrite O3. cbn [bind].
    set (M := T_c2g (N := FL) t) in *. set (c := transform_T (N := FL) M (t_rhub t)). set (Y := map (shift (N := FL) c) (map (transform_T (N := FL) M) pts)).
    assert (EM : map (mirror_pt (N := FL) (snd (fst c))) Y = map flip Y).
    { unfold Y. rewrite !map_map. apply map_ext_in. intros q Hq. apply (mirror_flip M mu); auto. rewrite Forall_forall in HP. auto. }
    set (U := if neqb FL g (nZ FL 0) then fzero (N := FL) pts else fadd (N := FL) (fadd (N := FL) (fzero (N := FL) pts) (vc_tang_u (N := FL) g (t_R t) (nZ FL 0) Y)) (vc_tang_u (N := FL) g (t_R t) (nZ FL 0) (map flip Y))).
    assert (EU : cu_single (N := FL) t o "VC" (chi_now t) g (ylist (N := FL) true c (map (transform_T (N := FL) M) pts)) (fzero (N := FL) pts) = Ok U).
    { unfold ylist. fold Y. rewrite EM. unfold cu_single. cbn [fold_left bind]. unfold gl_active1, cu_tang1. rewrite O1, O2, Sk. cbn [String.eqb Ascii.eqb Bool.eqb andb]. unfold U.
      destruct (neqb FL g (nZ FL 0)); reflexivity. }
    rewrite EU. cbn [bind]. rewrite O4. pose proof (Z64 0 ltac:(reflexivity)) as Z0.
    assert (NU : exists a b d, nth_error U i = Some (a, b, d) /\ nan_or b 0).
    { assert (N0 : nth_error (fzero (N := FL) pts) i = Some (fme 0 0, fme 0 0, fme 0 0)) by (exact (map_nth_error _ i pts Hi)).
      unfold U. destruct (neqb FL g (nZ FL 0)); [exists (fme 0 0), (fme 0 0), (fme 0 0); split; [exact N0|right; exact Z0]|].
      set (q := shift (N := FL) c (transform_T (N := FL) M p)).
      assert (NY : nth_error Y i = Some q) by (exact (map_nth_error _ i _ (map_nth_error _ i pts Hi))).
      assert (NF : nth_error (map flip Y) i = Some (flip q)) by (exact (map_nth_error flip i Y NY)).
      destruct (nth_error (vc_tang_polar (N := FL) g (t_R t) (nZ FL 0) Y) i) as [[ur uz]|] eqn:EP.
      2:{ exfalso. apply nth_error_None in EP. rewrite vc_tang_polar_length in EP. apply (Nat.lt_irrefl i). eapply Nat.lt_le_trans; [|exact EP]. apply nth_error_Some. rewrite NY. discriminate. }
      assert (HQ : exists v, is64 (snd (fst q)) v /\ v <> 0) by (apply (mirror_flip M mu (t_rhub t) p); auto; rewrite Forall_forall in HP; apply HP; eapply nth_error_In; eauto).
      destruct q as [[x y] z] eqn:Eq. destruct HQ as (v & HQ & NQ). cbn [fst snd] in HQ.
      eexists _, _, _. split.
      - unfold fadd. apply (map2_nth (vadd (N := FL)) _ _ i _ _ (map2_nth (vadd (N := FL)) _ _ i _ _ N0 (map2_nth (cart_of_polar2 (N := FL)) Y _ i _ _ NY EP))
          (map2_nth (cart_of_polar2 (N := FL)) (map flip Y) (vc_tang_polar (N := FL) g (t_R t) (nZ FL 0) (map flip Y)) i _ _ NF (eq_trans (f_equal (fun l => nth_error l i) (polar_flip g (t_R t) Y)) EP))).
      - cbn [cart_of_polar2 flip fst snd vadd]. 
        change (nan_or (bfadd (bfadd (fme 0 0) (bfmul ur (l_sin L (l_atan2 L y x)))) (bfmul ur (l_sin L (l_atan2 L (Bopp y) x)))) 0).
        rewrite (HO y v x HQ NQ), mul_opp_r. apply add_opp. exact Z0. }
    destruct NU as (a & b & d & NU & NB). set (w := transform (N := FL) M (a, b, d)).
    assert (NW : nth_error (map (transform (N := FL) M) U) i = Some w) by (exact (map_nth_error _ i U NU)).
    eexists _, w. split; [reflexivity|]. split.
    - destruct (o_only_ind o); [exact NW|]. exact (map_nth_error _ i _ NW).
    - unfold w. destruct M as [[[[m1 m2] m3] [[m4 m5] m6]] [[m7 m8] m9]]. destruct HM as (H1 & H2 & H3 & H4 & H5 & _). cbn [transform snd].
      change (nan_or (bfadd (bfadd (bfmul m7 a) (bfmul m8 b)) (bfmul m9 d)) 0).
      replace 0 with (0 + 0 + 0) by ring. apply nan_add; [apply nan_add; [apply nan_mul0; auto|eapply nan_mul; eauto|auto]|apply nan_mul0; auto|auto].
  Qed.
End Ground.

(** ** Histories *)
(** a turbine made by the constructor with a vertical axis e_vert=[0,0,1] and a horizontal shaft, then put through any sequence of public calls with finite yaw angles and hubs off the ground *)
Inductive gbuilt (L : mlib) (minim : (FN L -> FN L) -> FN L -> FN L -> FN L) : turbine (FN L) -> Prop :=
| g_new Rt hub sh (U : F * F * F) Ct Lam name gr mo : hub_ok hub -> level sh -> gbuilt L minim (new_turbine (N := FN L) Rt hub sh e3 U Ct Lam name gr mo)
| g_yaw t (yaw : F) : gbuilt L minim t -> is_finite yaw = true -> gbuilt L minim (update_yaw_pos t yaw)
| g_wind t (U : F * F * F) : gbuilt L minim t -> gbuilt L minim (update_wind t U)
| g_pos t hub : gbuilt L minim t -> hub_ok hub -> gbuilt L minim (update_position t hub)
| g_load t r Ct G Lam n f : gbuilt L minim t -> gbuilt L minim (fst (update_loading minim r Ct G Lam n f t))
| g_chi t (c : F) : gbuilt L minim t -> gbuilt L minim (set_chi t c)
| g_query t o pts : gbuilt L minim t -> gbuilt L minim (fst (compute_u t o pts)).
Lemma gbuilt_inv L minim t : gbuilt L minim t ->
  t_vert t = e3 /\ hub_ok (t_rhub t) /\ (exists sh, level sh /\ t_Tc2wt t = mcols (N := FN L) (cross (N := FN L) e3 sh) e3 sh) /\
  exists yaw : F, is_finite yaw = true /\ t_Twt2g t = RotMat_AxisAngle (N := FN L) e3 yaw.
Proof.
  induction 1 as [Rt hub sh U Ct Lam name gr mo H1 H2|t yaw _ (E & H & S & W) F1|t U _ IH|t hub _ (E & H & S & W) F1|t r Ct G Lam n f _ IH|t c _ IH|t o pts _ IH].
  - split; [reflexivity|]. split; [exact H1|]. split; [exists sh; split; [exact H2|reflexivity]|]. exists (fme 0 0). split; reflexivity.
  - split; [exact E|]. split; [exact H|]. split; [exact S|]. exists yaw. split; [exact F1|]. unfold update_yaw_pos. cbn [set_yawf t_Twt2g]. rewrite E. reflexivity.
  - exact IH.
  - split; [exact E|]. split; [exact F1|]. split; [exact S|exact W].
  - destruct (update_loading_fields minim r Ct G Lam n f t) as (_ & E2 & _ & _ & E5 & _ & _ & E8 & E9 & _). rewrite E2, E5, E8, E9. exact IH.
  - exact IH.
  - rewrite compute_u_fst. exact IH.
Qed.
Lemma gbuilt_up L minim t : odd_trig L -> gbuilt L minim t -> (exists mu, upright (T_c2g (N := FN L) t) mu) /\ hub_ok (t_rhub t).
Proof.
  intros O H. destruct (gbuilt_inv L minim t H) as (_ & HH & (sh & S & E1) & yaw & F1 & E2). split; [|exact HH].
  unfold T_c2g. rewrite E1, E2. apply (frame_up L yaw (B2R yaw) sh O (fin64 _ F1) S).
Qed.
(** C139.  One turbine (one vortex cylinder, horizontal shaft, treated as aligned with the wind) above the ground, with the ground effect: at points of the ground z=0
    compute_u returns in the third component exactly the vertical component of the wind - exactly 0 when only the induction is asked for - or NaN. *)
Theorem C139_vertical : forall L minim t (g : F) o pts, odd_trig L -> gbuilt L minim t -> t_gt t = Some [g] -> tang_ground L t o -> skewed (N := FN L) (chi_now t) = false ->
  Forall on_ground pts ->
  exists us, snd (compute_u t o pts) = Ok us /\ len us = len pts /\
    forall i vx vy vz, nth_error us i = Some (vx, vy, vz) ->
      if o_only_ind o then nan_or vz 0 else forall uz, is64 (snd (t_U0 t)) uz -> nan_or vz uz.
Proof.
  intros L minim t g o pts HO HB HG HT HS HP. destruct (gbuilt_up L minim t HO HB) as [HU HH].
  assert (EX : exists us, snd (compute_u t o pts) = Ok us).
  { destruct pts as [|p pts]; [|destruct (ground_nth L t g o (p :: pts) 0%nat p HO HG HT HS HU HH HP eq_refl) as (us & w & E & _); exists us; exact E].
    destruct (snd (compute_u t o [])) as [us|e] eqn:E; [exists us; exact E|]. exfalso. revert E. destruct HT as (O1 & O2 & O3 & O4 & O5 & O6). unfold compute_u. cbn [snd]. rewrite HG, O5, O6.
    unfold cu_root. rewrite O3. cbn [bind]. unfold ylist, cu_single. cbn [map fold_left bind]. unfold gl_active1, cu_tang1. rewrite O1, O2, HS. cbn [String.eqb Ascii.eqb Bool.eqb andb]. destruct (neqb (FN L) g (nZ (FN L) 0)); cbn [negb bind]; discriminate. }
  destruct EX as [us E]. assert (LU : len us = len pts) by exact (compute_u_length _ _ _ _ E). exists us. split; [exact E|]. split; [exact LU|].
  intros i vx vy vz Hi. assert (Li : (i < len us)%nat) by (apply nth_error_Some; rewrite Hi; discriminate). rewrite LU in Li.
  destruct (nth_error pts i) as [p|] eqn:Ep; [|apply nth_error_None in Ep; lia].
  destruct (ground_nth L t g o pts i p HO HG HT HS HU HH HP Ep) as (us' & w & E' & Hw & Nw). rewrite E in E'. injection E' as <-. rewrite Hi in Hw. injection Hw as Hw.
  destruct (o_only_ind o).
  - rewrite <- Hw in Nw. exact Nw.
  - intros uz HU0. destruct w as [[w1 w2] w3], (t_U0 t) as [[u1 u2] u3]. cbn [snd] in Nw, HU0. cbn [vadd] in Hw. injection Hw as -> -> ->.
    replace uz with (0 + uz) by ring. apply nan_add; [exact Nw|right; exact HU0|left; reflexivity].
Qed.
Lemma sum_vertical L k : forall (us : list (list (F * F * F))) (s : F * F * F), (forall u, In u us -> exists w, nth_error u k = Some w /\ nan_or (snd w) 0) -> nan_or (snd s) 0 ->
  nan_or (snd (fold_left (fun s u => vadd (N := FN L) s (nth k u (vzero (N := FN L)))) us s)) 0.
Proof.
  induction us as [|u us IH]; intros s H Hs; cbn [fold_left]; [exact Hs|]. apply IH; [intros u' Hu; apply H; right; exact Hu|].
  destruct (H u (or_introl eq_refl)) as (w & Hw & Nw). assert (EN : nth k u (vzero (N := FN L)) = w) by exact (nth_error_nth u k _ Hw).
  change (nan_or (snd (vadd (N := FN L) s (nth k u (vzero (N := FN L))))) 0). rewrite EN.
  destruct s as [[s1 s2] s3], w as [[w1 w2] w3]. cbn [snd] in *. replace 0 with (0 + 0) by ring. apply nan_add; auto.
Qed.
(** the same for a farm of such turbines: the sum over the farm and the wind given to velocity_field *)
Theorem C139_farm : forall L minim h f ts o U0 pts, odd_trig L -> members h f ts ->
  (forall t, In t ts -> gbuilt L minim t /\ (exists g : F, t_gt t = Some [g]) /\ tang_ground L t o /\ skewed (N := FN L) (chi_now t) = false) -> Forall on_ground pts ->
  exists v, snd (velocity_field h f o U0 pts) = Ok v /\ len v = len pts /\
    forall k vx vy vz, nth_error v k = Some (vx, vy, vz) ->
      match U0 with None => nan_or vz 0 | Some (_, _, uz) => forall w, is64 uz w -> nan_or vz w end.
Proof.
  intros L minim h f ts o U0 pts HO HM HT HP.
  assert (EU : exists us, Forall2 (fun t u => snd (compute_u t (with_only_ind true o) pts) = Ok u /\ len u = len pts /\ forall i w, nth_error u i = Some w -> nan_or (snd w) 0) ts us).
  { clear HM. induction ts as [|t ts IH]; [exists []; constructor|]. destruct IH as [us IH]; [intros t' H; apply HT; right; exact H|].
    destruct (HT t (or_introl eq_refl)) as (HB & (g & HG) & (O1 & O2 & O3 & O4 & O5 & O6) & HS).
    destruct (C139_vertical L minim t g (with_only_ind true o) pts HO HB HG (conj O1 (conj O2 (conj O3 (conj O4 (conj O5 O6))))) HS HP) as (u & E & LU & K).
    exists (u :: us). constructor; [|exact IH]. split; [exact E|]. split; [exact LU|]. intros i [[a b] c] Hi. exact (K i a b c Hi). }
  destruct EU as [us EU].
  assert (F1 : Forall2 (fun t u => snd (compute_u t (with_only_ind true o) pts) = Ok u) ts us) by (clear - EU; induction EU as [|t u ts us (H & _) _ IH]; constructor; auto).
  destruct (proj1 (C01_farm_superposition (FN L) h f ts o U0 pts HM) us F1) as (v & EV & LV & KV). exists v. split; [exact EV|]. split; [exact LV|].
  intros k vx vy vz Hk. assert (Lk : (k < len v)%nat) by (apply nth_error_Some; rewrite Hk; discriminate). rewrite LV in Lk. specialize (KV k Lk).
  assert (EN : nth k v (vzero (N := FN L)) = (vx, vy, vz)) by exact (nth_error_nth v k _ Hk). rewrite EN in KV.
  assert (T : nan_or (snd (total_at (N := FN L) k us)) 0).
  { apply (sum_vertical L k us); [|right; apply (Z64 0); reflexivity]. intros u Hu. 
    assert (Q : exists t, snd (compute_u t (with_only_ind true o) pts) = Ok u /\ len u = len pts /\ forall i w, nth_error u i = Some w -> nan_or (snd w) 0).
    { clear - EU Hu. induction EU as [|t u' ts us H _ IH]; [destruct Hu|]. destruct Hu as [<- |Hu]; [exists t; exact H|auto]. }
    destruct Q as (t & _ & LU & K). destruct (nth_error u k) as [w|] eqn:E; [exists w; split; [reflexivity|eauto]|]. exfalso. apply nth_error_None in E. exact (Nat.lt_irrefl k (Nat.lt_le_trans _ _ _ Lk (Nat.le_trans _ _ _ (Nat.eq_le_incl _ _ (eq_sym LU)) E))). }
  destruct U0 as [[[u1 u2] u3]|].
  - intros w Hw. destruct (total_at (N := FN L) k us) as [[t1 t2] t3]. cbn [vadd snd] in *. injection KV as -> -> ->. replace w with (0 + w) by ring. apply nan_add; [exact T|right; exact Hw|left; reflexivity].
  - rewrite <- KV in T. exact T.
Qed.

(** ** A library and a farm meeting the hypotheses *)
Definition sinO (a : F) : F := if Bsign a then Bopp (fl_of (sin (B2R (Bopp a)))) else fl_of (sin (B2R a)).
Definition atanO (y x : F) : F := if Bsign y then Bopp (fl_of (acos (B2R x / sqrt (B2R x * B2R x + B2R y * B2R y)))) else fl_of (acos (B2R x / sqrt (B2R x * B2R x + B2R y * B2R y))).
Definition lib_odd : mlib := {| l_pow := fun _ _ => fnan; l_exp := fun _ => fnan; l_log := fun _ => fnan; l_cosh := fun _ => fnan; l_cos := fun a => fl_of (cos (B2R a));
  l_sin := fun a => match a with B754_nan => fnan | _ => sinO a end; l_tan := fun _ => fnan; l_atan := fun _ => fnan; l_acos := acos64; l_atan2 := atanO; l_ellipk := fun _ => fnan; l_ellipe := fun _ => fnan |}.
Lemma sinO_opp a : l_sin lib_odd (Bopp a) = Bopp (l_sin lib_odd a).
Proof.
  assert (I : forall b : F, Bopp (Bopp b) = b) by (intros [s|s| |s m e H]; cbn; rewrite ?negb_involutive; reflexivity).
  assert (G : forall b : F, b <> B754_nan -> sinO (Bopp b) = Bopp (sinO b)).
  { intros b NB. unfold sinO. assert (E : Bsign (Bopp b) = negb (Bsign b)) by (destruct b; try reflexivity; congruence). rewrite E. destruct (Bsign b); cbn [negb]; rewrite ?I; reflexivity. }
  destruct a as [s|s| |s m e H]; [| |reflexivity|]; cbn [l_sin lib_odd Bopp].
  - rewrite <- (G (B754_zero s)); [reflexivity|discriminate].
  - rewrite <- (G (B754_infinity s)); [reflexivity|discriminate].
  - rewrite <- (G (B754_finite s m e H)); [reflexivity|discriminate].
Qed.
Lemma lib_odd_good : odd_trig lib_odd.
Proof.
  split.
  - intros a x [A <-]. assert (FC : Rabs (cos (B2R a)) <= 1) by (apply Rabs_le, COS_bound).
    exists (rnd (cos (B2R a))). assert (SN : is_finite (l_sin lib_odd a) = true).
    { assert (FI : forall x, is_finite (fl_of (sin x)) = true) by (intros y; apply (fl_of_is (sin y)); apply small_big; pose proof (SIN_bound y); apply Rle_trans with 1; [apply Rabs_le; auto|lra]).
      assert (FO : forall b : F, is_finite (Bopp b) = is_finite b) by (intros [ | | | ]; reflexivity).
      destruct a; try discriminate A; cbn [l_sin lib_odd]; unfold sinO; destruct (Bsign _); rewrite ?FO; apply FI. }
    exists (B2R (l_sin lib_odd a)). split; [apply fl_of_is; apply small_big; lra|]. split; [split; [exact SN|reflexivity]|].
    apply Rabs_def2b in FC || apply Rabs_le_inv in FC. pose proof (rnd_le (-1) (cos (B2R a)) (proj1 FC)) as K1. pose proof (rnd_le (cos (B2R a)) 1 (proj2 FC)) as K2.
    rewrite rnd_id in K1 by (apply (fmt_Z (-1)); cbn; lia). rewrite (rnd_id 1) in K2 by (apply (fmt_Z 1); cbn; lia). split; assumption.
  - intros y v x HY NV. rewrite <- sinO_opp. f_equal. cbn [l_atan2 lib_odd]. unfold atanO. destruct HY as [HF HV].
    assert (E : Bsign (Bopp y) = negb (Bsign y)) by (destruct y; try discriminate HF; reflexivity).
    assert (I : forall b : F, Bopp (Bopp b) = b) by (intros [s|s| |s m e H]; cbn; rewrite ?negb_involutive; reflexivity).
    rewrite E, B2R_Bopp. replace (- B2R y * - B2R y) with (B2R y * B2R y) by ring. destruct (Bsign y); cbn [negb]; rewrite ?I; reflexivity.
Qed.

Lemma aligned1 : skewed (N := FN lib_odd) (chi_now (new_turbine (N := FN lib_odd) (fme 50 0) (fme 0 0, fme 0 0, fme 90 0) e1 e3 (fme 8 0, fme 0 0, fme 0 0) None (Some (ninf (FN lib_odd))) "a" true "VC"%string)) = false.
Proof.
  pose proof (Z64 0 ltac:(reflexivity)) as Z0. pose proof (Z64 1 ltac:(reflexivity)) as O1. pose proof (Z64 8 ltac:(reflexivity)) as Hu.
  assert (HH : horizontal e1 e3 (fme 8 0, fme 0 0, fme 0 0) 1 0 8 0 0).
  { cbn [horizontal e1 e3]. assert (I1 : rg 100 1) by (apply (rg_le 1); [lia|]; apply rg_pos; change (bpow radix2 (- (1))) with (/ 2); change (bpow radix2 1) with 2; lra).
    assert (I0 : rg 100 0) by (left; reflexivity). assert (IU : rg 100 8) by (apply (rg_le 10); [lia|]; apply rg_pos; change (bpow radix2 (- (10))) with (/ 1024); change (bpow radix2 10) with 1024; lra).
    split; [exact O1|]. split; [exact Z0|]. split; [exact Z0|]. split; [exact Z0|]. split; [exact Z0|]. split; [exact O1|]. split; [exact Hu|]. split; [exact Z0|]. split; [exact Z0|].
    split; [exact I1|]. split; [exact I0|]. split; [left; lra|]. split; [exact IU|]. split; [exact I0|]. split; [left; lra|exact I0]. }
  destruct (C134_aligned_partial lib_odd (fme 50 0) (fme 0 0, fme 0 0, fme 90 0) e1 e3 (fme 8 0, fme 0 0, fme 0 0) None (Some (ninf (FN lib_odd))) "a" true "VC"%string 1 0 8 0 0 8) as [S _].
  - exact (lib_acos_good (l_cos lib_odd) (l_sin lib_odd)).
  - exact HH.
  - lra.
  - rewrite Rmult_1_r, Rminus_eq_0, Rabs_R0. apply Rmult_le_pos; [apply Rlt_le, u53_pos|apply Rabs_pos].
  - rewrite Rmult_0_r, Rminus_eq_0, Rabs_R0. lra.
  - exact S.
Qed.
(** a turbine of radius 50 at hub height 90, loaded with one cylinder of strength -2 and asked twice in a farm, meets the hypotheses *)
Example C139_nonvacuous : forall minim, exists t h, odd_trig lib_odd /\ gbuilt lib_odd minim t /\ t_gt t = Some [fme (-2) 0] /\ tang_ground lib_odd t default_opts /\
  skewed (N := FN lib_odd) (chi_now t) = false /\ is64 (snd (t_U0 t)) 0 /\ members h [0%nat; 0%nat] [t; t] /\ Forall on_ground [(fme 100 0, fme (-30) 0, fme 0 0); (fme 0 0, fme 0 0, fme 0 0)].
Proof.
  intros minim. set (t0 := new_turbine (N := FN lib_odd) (fme 50 0) (fme 0 0, fme 0 0, fme 90 0) e1 e3 (fme 8 0, fme 0 0, fme 0 0) None (Some (ninf (FN lib_odd))) "a" true "VC"%string).
  set (t := fst (update_loading (N := FN lib_odd) minim None (Some [fme 3 (-2)]) None None (Some 1%nat) (Some (fun _ => Ok [fme (-2) 0])) t0)). exists t, [OWT t].
  split; [exact lib_odd_good|]. split.
  { apply g_load, g_new.
    - split; [reflexivity|]. split; [reflexivity|]. exists 90. split; [apply (Z64 90); reflexivity|]. split; [lra|]. apply (rg_le 10); [lia|]. apply rg_pos; change (bpow radix2 (- (10))) with (/ 1024); change (bpow radix2 10) with 1024; lra.
    - split; [reflexivity|]. split; [reflexivity|]. apply (Z64 0); reflexivity. }
  split; [reflexivity|]. split; [repeat split|]. split; [exact aligned1|]. split; [apply (Z64 0); reflexivity|]. split; [repeat constructor|].
  constructor; [|constructor; [|constructor]]; (split; [reflexivity|]; split; [reflexivity|]; apply (Z64 0); reflexivity).
Qed.
