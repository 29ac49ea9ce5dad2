(** * Properties in binary64 arithmetic: C133 *)
From Coq Require Import Reals ZArith Lra Lia List Bool String Permutation.
From Flocq Require Import Core BinarySingleNaN.
From Verif Require Import Num NumF Spec M_Cylinder M_Solver M_Turbine M_Farm L_List L_Turbine L_State L_Farm L_Multi L_TurbineY P_Farm.
Import ListNotations.
Local Open Scope R_scope.
Local Notation len := List.length.

(** coordinate number j of a vector *)
Inductive axis := AX | AY | AZ.
Definition coord {A} (j : axis) (p : A * A * A) : A := let '(x, y, z) := p in match j with AX => x | AY => y | AZ => z end.
Definition total (l : list R) : R := fold_right Rplus 0 l.
Definition mass (l : list R) : R := total (map Rabs l).
Lemma mass_cons a l : mass (a :: l) = Rabs a + mass l. Proof. reflexivity. Qed.
Lemma total_cons a l : total (a :: l) = a + total l. Proof. reflexivity. Qed.
Lemma mass_pos l : 0 <= mass l.
Proof. induction l as [|a l IH]; [apply Rle_refl|]. rewrite mass_cons. pose proof (Rabs_pos a). lra. Qed.
Lemma total_abs l : Rabs (total l) <= mass l.
Proof. induction l as [|a l IH]; [unfold mass, total; cbn; rewrite Rabs_R0; apply Rle_refl|]. rewrite mass_cons, total_cons. eapply Rle_trans; [apply Rabs_triang|]. lra. Qed.
(** ** Adding a list of floats from left to right *)
Lemma sum64 l vs : Forall2 is64 l vs -> forall a s e, is64 a s -> Rabs s <= e ->
  (1 + u53) ^ len vs * (e + mass vs) <= big ->
  exists r, is64 (fold_left bfadd l a) r /\ Rabs (r - (s + total vs)) <= ((1 + u53) ^ len vs - 1) * (e + mass vs).
Proof.
  pose proof u53_pos as Hu. induction 1 as [|b v l vs Hb Hl IH]; intros a s e Ha Hs Hbig.
  - exists s. split; [exact Ha|]. change (total []) with 0. rewrite Rplus_0_r, Rminus_eq_0, Rabs_R0. cbn [len pow]. rewrite Rminus_eq_0, Rmult_0_l. apply Rle_refl.
  - rewrite mass_cons in *. rewrite total_cons. cbn [len pow] in *.
    pose proof (mass_pos vs) as Hm. pose proof (Rabs_pos v) as Hv. pose proof (Rabs_pos s) as Hs0.
    assert (P1 : 1 <= (1 + u53) ^ len vs) by (apply pow_R1_Rle; lra).
    assert (S1 : Rabs (s + v) <= e + Rabs v) by (eapply Rle_trans; [apply Rabs_triang|lra]).
    assert (G : 0 <= (1 + u53) ^ len vs * (e + (Rabs v + mass vs)) - (e + (Rabs v + mass vs))).
    { assert (0 <= ((1 + u53) ^ len vs - 1) * (e + (Rabs v + mass vs))) by (apply Rmult_le_pos; lra). lra. }
    assert (G2 : 0 <= u53 * ((1 + u53) ^ len vs * (e + (Rabs v + mass vs)))) by (apply Rmult_le_pos; [lra|apply Rmult_le_pos; lra]).
    assert (B1 : Rabs (s + v) <= big) by lra.
    pose proof (add64 a b s v Ha Hb B1) as A1.
    destruct (rnd_plus s v (is64_fmt _ _ Ha) (is64_fmt _ _ Hb)) as (d & Hd & Er).
    destruct (IH (bfadd a b) (rnd (s + v)) ((1 + u53) * (e + Rabs v)) A1) as (r & R1 & R2).
    + rewrite Er, Rabs_mult, Rmult_comm. apply Rmult_le_compat; try apply Rabs_pos; auto. eapply Rle_trans; [apply Rabs_triang|]. rewrite Rabs_R1. lra.
    + eapply Rle_trans; [|exact Hbig]. rewrite (Rmult_comm (1 + u53) ((1 + u53) ^ len vs)), Rmult_assoc. apply Rmult_le_compat_l; [lra|].
      assert (0 <= u53 * mass vs) by (apply Rmult_le_pos; lra). lra.
    + exists r. split; [exact R1|]. set (p := (1 + u53) ^ len vs) in *.
      replace (r - (s + (v + total vs))) with ((r - (rnd (s + v) + total vs)) + (rnd (s + v) - (s + v))) by ring.
      eapply Rle_trans; [apply Rabs_triang|].
      assert (E1 : Rabs (rnd (s + v) - (s + v)) <= u53 * (e + Rabs v)).
      { rewrite Er. replace ((s + v) * (1 + d) - (s + v)) with (d * (s + v)) by ring. rewrite Rabs_mult. apply Rmult_le_compat; auto; apply Rabs_pos. }
      assert (0 <= u53 * mass vs) by (apply Rmult_le_pos; lra).
      assert (0 <= (p - 1) * (u53 * mass vs)) by (apply Rmult_le_pos; lra).
      eapply Rle_trans; [apply Rplus_le_compat; [exact R2|exact E1]|]. lra.
Qed.

(** ** The velocity of a farm *)
Section Farm.
  Context (L : mlib).
  Notation FL := (FN L).
  Notation pt := (FL * FL * FL)%type.
  Lemma coord_vadd j (a b : pt) : coord j (vadd a b) = bfadd (coord j a) (coord j b).
  Proof. destruct a as [[a0 a1] a2], b as [[b0 b1] b2], j; reflexivity. Qed.
  Lemma coord_sum j k (us : list (list pt)) s :
    coord j (fold_left (fun s u => vadd s (nth k u vzero)) us s) = fold_left bfadd (map (fun u => coord j (nth k u vzero)) us) (coord j s).
  Proof. revert s; induction us as [|u us IH]; intros s; [reflexivity|]. cbn [fold_left map]. rewrite IH, coord_vadd. reflexivity. Qed.
  Lemma F2_map {A B C} (f : A -> B) (P : B -> C -> Prop) l m : Forall2 (fun a c => P (f a) c) l m -> Forall2 P (map f l) m.
  Proof. induction 1; constructor; auto. Qed.
  Lemma zero64 j : is64 (coord j (@vzero FL)) 0.
  Proof. assert (Z : is64 (nZ FL 0) 0) by (apply (Z64 0); reflexivity). destruct j; exact Z. Qed.
End Farm.

(** C133.  One coordinate of the velocity at one control point.  [vs] are the contributions of the turbines (numbers: none is inf or NaN) and, if a free stream is
    passed, its component.  The answer is a number, and it differs from the sum of the contributions by at most ((1+u)^n - 1) times the sum of their absolute values,
    whatever the library functions do.  The hypothesis excludes overflow (the largest binary64 number is above big = 2^1023). *)
Definition contributions (L : mlib) (j : axis) (k : nat) (us : list (list (F * F * F))) (U0 : option (F * F * F)) (vs : list R) : Prop :=
  Forall2 is64 (map (fun u => coord j (nth k u (@vzero (FN L)))) us ++ match U0 with None => [] | Some U => [coord j U] end) vs.
Theorem C133_superposition_rounding :
  forall (L : mlib) (h : heap (FN L)) (f : farm) (ts : list (turbine (FN L))) (o : opts (FN L)) (U0 : option (F * F * F)) (pts : list (F * F * F)) us (k : nat) (j : axis) (vs : list R),
  members h f ts -> Forall2 (fun t u => snd (compute_u t (with_only_ind true o) pts) = Ok u) ts us -> (k < len pts)%nat ->
  contributions L j k us U0 vs ->
  (1 + u53) ^ len vs * mass vs <= big ->
  exists v s, snd (velocity_field h f o U0 pts) = Ok v /\ is64 (coord j (nth k v (@vzero (FN L)))) s /\
    Rabs (s - total vs) <= ((1 + u53) ^ len vs - 1) * mass vs.
Proof.
  intros L h f ts o U0 pts us k j vs HM Hu Hk Hc Hb.
  destruct (proj1 (C01_farm_superposition (FN L) h f ts o U0 pts HM) us Hu) as (v & Ev & _ & Hv).
  assert (E : coord j (nth k v (@vzero (FN L))) = fold_left bfadd (map (fun u => coord j (nth k u (@vzero (FN L)))) us ++ match U0 with None => [] | Some U => [coord j U] end) (coord j (@vzero (FN L)))).
  { rewrite (Hv k Hk), fold_left_app, <- (coord_sum L). fold (@total_at (FN L) k us). destruct U0 as [U|]; [|reflexivity]. rewrite (coord_vadd L). reflexivity. }
  destruct (sum64 _ _ Hc (coord j (@vzero (FN L))) 0 0 (zero64 L j)) as (s & S1 & S2).
  - rewrite Rabs_R0; apply Rle_refl.
  - rewrite Rplus_0_l. exact Hb.
  - exists v, s. split; [exact Ev|]. split; [rewrite E; exact S1|]. rewrite !Rplus_0_l in S2. exact S2.
Qed.
Lemma total_perm l m : Permutation l m -> total l = total m.
Proof. induction 1; rewrite ?total_cons; try lra; congruence. Qed.
Lemma mass_perm l m : Permutation l m -> mass l = mass m.
Proof. intros H. apply total_perm. apply Permutation_map; auto. Qed.
Lemma F2_perm {A B} (P : A -> B -> Prop) l l' : Permutation l l' -> forall m, Forall2 P l m -> exists m', Permutation m m' /\ Forall2 P l' m'.
Proof.
  induction 1 as [|x l l' H IH|x y l|l l' l'' H1 IH1 H2 IH2]; intros m Hm.
  - inversion Hm; subst. exists []. auto.
  - inversion Hm as [|? b ? m0 Hx Hl]; subst. destruct (IH m0 Hl) as (m' & P1 & P2). exists (b :: m'). auto.
  - inversion Hm as [|? b ? m0 Hx Hl]; subst. inversion Hl as [|? c ? m1 Hy Hl']; subst. exists (c :: b :: m1). split; [apply perm_swap|auto].
  - destruct (IH1 m Hm) as (m' & P1 & P2). destruct (IH2 m' P2) as (m'' & P3 & P4). exists m''. split; [eapply perm_trans; eauto|auto].
Qed.
(** reordering the turbines of the farm changes the answer by rounding only *)
Theorem C133_reordering_rounding :
  forall (L : mlib) (h : heap (FN L)) (f g : farm) (ts : list (turbine (FN L))) (o : opts (FN L)) (U0 : option (F * F * F)) (pts : list (F * F * F)) us (k : nat) (j : axis) (vs : list R),
  Permutation f g ->
  members h f ts -> Forall2 (fun t u => snd (compute_u t (with_only_ind true o) pts) = Ok u) ts us -> (k < len pts)%nat ->
  contributions L j k us U0 vs -> (1 + u53) ^ len vs * mass vs <= big ->
  exists v w s r, snd (velocity_field h f o U0 pts) = Ok v /\ snd (velocity_field h g o U0 pts) = Ok w /\
    is64 (coord j (nth k v (@vzero (FN L)))) s /\ is64 (coord j (nth k w (@vzero (FN L)))) r /\
    Rabs (s - r) <= 2 * ((1 + u53) ^ len vs - 1) * mass vs.
Proof.
  intros L h f g ts o U0 pts us k j vs HP HM Hu Hk Hc Hb.
  destruct (C133_superposition_rounding L h f ts o U0 pts us k j vs HM Hu Hk Hc Hb) as (v & s & V1 & V2 & V3).
  destruct (F2_perm _ _ _ HP ts HM) as (ts' & PT & HM').
  destruct (F2_perm _ _ _ PT us Hu) as (us' & PU & Hu').
  assert (HC : exists vs', Permutation vs vs' /\ contributions L j k us' U0 vs').
  { unfold contributions in *. apply F2_perm with (l := map (fun u => coord j (nth k u (@vzero (FN L)))) us ++ match U0 with None => [] | Some U => [coord j U] end); auto.
    apply Permutation_app_tail. apply Permutation_map. exact PU. }
  destruct HC as (vs' & PV & Hc').
  rewrite (mass_perm _ _ PV), (Permutation_length PV) in Hb.
  destruct (C133_superposition_rounding L h g ts' o U0 pts us' k j vs' HM' Hu' Hk Hc' Hb) as (w & r & W1 & W2 & W3).
  rewrite <- (mass_perm _ _ PV), <- (Permutation_length PV), <- (total_perm _ _ PV) in W3.
  exists v, w, s, r. split; [exact V1|]. split; [exact W1|]. split; [exact V2|]. split; [exact W2|].
  replace (s - r) with ((s - total vs) - (r - total vs)) by ring. unfold Rminus at 1. eapply Rle_trans; [apply Rabs_triang|]. rewrite Rabs_Ropp. lra.
Qed.

(** ** A farm evaluated in binary64 *)
(** A library that is right wherever the example calls it (cos 0 = 1, sin 0 = 0, arccos 1 = 0, tan 0 = 0) and answers NaN elsewhere. *)
Definition at0 (v : F) (x : F) : F := if Beqb x fzero64 then v else fnan.
Definition lib0 : mlib := {| l_pow := fun _ _ => fnan; l_exp := at0 fone; l_log := fun _ => fnan; l_cosh := at0 fone; l_cos := at0 fone; l_sin := at0 fzero64; l_tan := at0 fzero64;
  l_atan := at0 fzero64; l_acos := fun x => if Beqb x fone then fzero64 else fnan; l_atan2 := fun y x => if Beqb y fzero64 then at0 fzero64 x else fnan; l_ellipk := at0 (fme 884279719003555 (-49)); l_ellipe := at0 (fme 884279719003555 (-49)) |}.
(** an unyawed turbine at the origin in a wind along its axis, with sheet intensity m*2^e *)
Definition turb64 (m e : Z) : turbine (FN lib0) :=
  set_gl (set_gt (new_turbine (N := FN lib0) (fme 50 0) (fzero64, fzero64, fzero64) (fone, fzero64, fzero64) (fzero64, fzero64, fone) (fme 10 0, fzero64, fzero64) None (Some (fme 7 0)) "" false "VC")
     (Some [fme m e])) None.
Definition farm64 : heap (FN lib0) := [OWT (turb64 2 0); OWT (turb64 1 (-52)); OWT (turb64 1 (-52))].
Definition at_hub : list (F * F * F) := [(fzero64, fzero64, fzero64)].

(** evaluation of a result, without the proofs carried by the floats *)
Definition shown (j : axis) (k : nat) (r : result (list (F * F * F))) : option SpecFloat.spec_float :=
  match r with Ok v => option_map (fun p => B2SF (coord j p)) (nth_error v k) | Err _ => None end.
Lemma shown_is j k r s m e : shown j k r = Some (SpecFloat.S754_finite s m e) ->
  exists v, r = Ok v /\ (k < len v)%nat /\ is64 (coord j (nth k v (@vzero (FN lib0)))) (IZR (cond_Zopp s (Zpos m)) * bpow radix2 e).
Proof.
  unfold shown. destruct r as [v|]; [|discriminate]. destruct (nth_error v k) as [p|] eqn:E; [|discriminate]. cbn [option_map]. intros H. injection H; intros HB.
  exists v. split; [reflexivity|]. split; [apply nth_error_Some; congruence|]. rewrite (nth_error_nth _ _ _ E).
  exact (sf_is _ _ _ _ HB).
Qed.
Lemma farm64_answers : exists us, Forall2 (fun (t : turbine (FN lib0)) u => snd (compute_u t (with_only_ind true default_opts) at_hub) = Ok u) [turb64 2 0; turb64 1 (-52); turb64 1 (-52)] us /\
  contributions lib0 AX 0 us None [1; bpow radix2 (-53); bpow radix2 (-53)].
Proof.
  assert (A : shown AX 0 (snd (compute_u (turb64 2 0) (with_only_ind true default_opts) at_hub)) = Some (SpecFloat.S754_finite false 4503599627370496 (-52))) by (vm_compute; reflexivity).
  assert (B : shown AX 0 (snd (compute_u (turb64 1 (-52)) (with_only_ind true default_opts) at_hub)) = Some (SpecFloat.S754_finite false 4503599627370496 (-105))) by (vm_compute; reflexivity).
  destruct (shown_is _ _ _ _ _ _ A) as (a & A1 & _ & A2). destruct (shown_is _ _ _ _ _ _ B) as (b & B1 & _ & B2).
  exists [a; b; b]. split; [repeat constructor; auto|].
  assert (K : IZR (cond_Zopp false (Z.pos 4503599627370496)) * bpow radix2 (-52) = 1).
  { cbn [cond_Zopp]. change (bpow radix2 (-52)) with (/ IZR 4503599627370496). field. }
  assert (K' : IZR (cond_Zopp false (Z.pos 4503599627370496)) * bpow radix2 (-105) = bpow radix2 (-53)).
  { replace (-105)%Z with (-52 + -53)%Z by reflexivity. rewrite bpow_plus, <- Rmult_assoc, K. ring. }
  rewrite K in A2. rewrite K' in B2. unfold contributions. cbn [map app]. apply Forall2_cons; [exact A2|]. apply Forall2_cons; [exact B2|]. apply Forall2_cons; [exact B2|]. constructor.
Qed.
Example C133_nonvacuous :
  members farm64 [0; 1; 2]%nat [turb64 2 0; turb64 1 (-52); turb64 1 (-52)] /\ Permutation [0; 1; 2]%nat [1; 2; 0]%nat /\
  (exists us, Forall2 (fun (t : turbine (FN lib0)) u => snd (compute_u t (with_only_ind true default_opts) at_hub) = Ok u) [turb64 2 0; turb64 1 (-52); turb64 1 (-52)] us /\
     contributions lib0 AX 0 us None [1; bpow radix2 (-53); bpow radix2 (-53)]) /\
  (1 + u53) ^ 3 * mass [1; bpow radix2 (-53); bpow radix2 (-53)] <= big.
Proof.
  split; [repeat constructor|]. split; [apply (Permutation_app_comm [0%nat] [1; 2]%nat)|]. split; [exact farm64_answers|].
  assert (B : bpow radix2 (-53) <= 1) by (apply (bpow_le radix2 (-53) 0); lia). pose proof (bpow_gt_0 radix2 (-53)) as P.
  assert (M : mass [1; bpow radix2 (-53); bpow radix2 (-53)] <= 3).
  { rewrite !mass_cons. change (mass []) with 0. rewrite !Rabs_pos_eq by lra. lra. }
  assert (U : (1 + u53) ^ 3 <= 2) by (unfold u53; lra).
  apply Rle_trans with (bpow radix2 3); [|apply bpow_le; lia]. change (bpow radix2 3) with 8.
  pose proof (mass_pos [1; bpow radix2 (-53); bpow radix2 (-53)]). assert (0 <= (1 + u53) ^ 3) by (apply pow_le; unfold u53; lra).
  apply Rle_trans with (2 * 3); [|lra]. apply Rmult_le_compat; auto.
Qed.
(** what C02 says of exact arithmetic (reordering changes nothing) is false of binary64: 1 + 2^-53 + 2^-53 is 1, 2^-53 + 2^-53 + 1 is 1 + 2^-52 *)
Definition C133_full (L : mlib) : Prop :=
  forall (h : heap (FN L)) (f g : farm) (o : opts (FN L)) (U0 : option (F * F * F)) (pts : list (F * F * F)) v,
  Permutation f g -> snd (velocity_field h f o U0 pts) = Ok v -> snd (velocity_field h g o U0 pts) = Ok v.
Theorem C133_refuted : ~ C133_full lib0.
Proof.
  intros H.
  assert (A : shown AX 0 (snd (velocity_field farm64 [0; 1; 2]%nat default_opts None at_hub)) = Some (SpecFloat.S754_finite false 4503599627370496 (-52))) by (vm_compute; reflexivity).
  assert (B : shown AX 0 (snd (velocity_field farm64 [1; 2; 0]%nat default_opts None at_hub)) = Some (SpecFloat.S754_finite false 4503599627370497 (-52))) by (vm_compute; reflexivity).
  destruct (shown_is _ _ _ _ _ _ A) as (v & A1 & _ & _).
  pose proof (f_equal (shown AX 0) (H farm64 [0; 1; 2]%nat [1; 2; 0]%nat default_opts None at_hub v (Permutation_app_comm [0%nat] [1; 2]%nat) A1)) as E.
  pose proof (f_equal (shown AX 0) A1) as E1. pose proof (eq_trans (eq_sym B) E) as K1. pose proof (eq_trans (eq_sym A) E1) as K2. pose proof (eq_trans K1 (eq_sym K2)) as K3. discriminate K3.
Qed.
