(** * C27 (radii): the cylinders whose field is computed are not those the loading was solved for *)
From Coq Require Import Reals Lra Psatz Lia ZArith List Bool String.
From Verif Require Import Num NumR NumX M_Cylinder M_Solver M_Turbine L_List L_X L_Solver L_Built P_Skewed P_Loading P_Ground.
Import ListNotations.
Local Open Scope R_scope.
Local Notation len := List.length.

Definition increasing (rs : list R) : Prop := forall i, (S i < len rs)%nat -> nth i rs 0 < nth (S i) rs 0.
Lemma rc_strict rs Rt : (2 <= len rs)%nat -> increasing rs -> forall i, (i < len rs)%nat -> nth i rs 0 < nth i (rcR rs Rt) 0.
Proof.
  intros Hn Hinc i Hi. destruct rs as [|a [|b r]]; cbn in Hn; try lia.
  unfold rcR, default_r_cyl. rewrite midpoints_nth by (cbn in *; lia).
  match goal with |- context [if ?c then _ else _] => destruct c eqn:E end.
  - apply Nat.eqb_eq in E. destruct i as [|i]; [cbn in E; lia|]. pose proof (Hinc i Hi) as K. replace (S i - 1)%nat with i by lia. change (T RN) with R in *. lra.
  - apply Nat.eqb_neq in E. pose proof (Hinc i ltac:(cbn in *; lia)) as K. change (T RN) with R in *. lra.
Qed.

Lemma linspace_inc a b n : (2 <= n)%nat -> a < b -> increasing (linspace (N := RN) a b n) /\ len (linspace (N := RN) a b n) = n.
Proof.
  intros Hn Hab. rewrite linspace_seq by auto. assert (L : len (map (fun i => a + INR i * ((b - a) / INR (n - 1))) (seq 0 n)) = n) by (rewrite map_length, seq_length; reflexivity).
  split; auto. intros i Hi. rewrite L in Hi. assert (0 < INR (n - 1)) by (apply lt_0_INR; lia).
  assert (G : forall j, (j < n)%nat -> nth j (map (fun i => a + INR i * ((b - a) / INR (n - 1))) (seq 0 n)) 0 = a + INR j * ((b - a) / INR (n - 1))).
  { intros j Hj. set (f := fun i => a + INR i * ((b - a) / INR (n - 1))). rewrite (nth_indep _ 0 (f 0%nat)) by (unfold f; rewrite map_length, seq_length; lia). rewrite map_nth, seq_nth by auto. reflexivity. }
  rewrite !G by lia. rewrite S_INR. assert (0 < (b - a) / INR (n - 1)) by (apply Rdiv_lt_0_compat; lra). lra.
Qed.
Lemma scale_inc k rs : 0 < k -> increasing rs -> increasing (map (fun x => x * k) rs).
Proof.
  intros hk H i Hi. rewrite map_length in Hi. specialize (H i Hi). set (f := fun x => x * k). rewrite (nth_indep _ 0 (f 0)) by (rewrite map_length; lia). rewrite (nth_indep (map f rs) 0 (f 0) (n := S i)) by (rewrite map_length; lia). rewrite !map_nth. unfold f. nra.
Qed.
(** For every loading of at least two cylinders, given at increasing radii ([nCyl] = None) or re-interpolated ([nCyl] >= 2), the
    radii kept for the velocity (self.r) are all strictly smaller than the cylinder radii the solver determined the intensities
    for ([default_r_cyl], what WakeVorticityFromCt and WakeVorticityFromGamma use) *)
Theorem C86_radii_refuted : forall minim (t t' : turbine XN) rs Ct Gamma L nCyl Rt,
  t_R t = Fin Rt -> 0 < Rt -> match nCyl with None => (2 <= len rs)%nat /\ increasing rs | Some n => (2 <= n)%nat end ->
  update_loading (N := XN) minim (Some (map Fin rs)) Ct Gamma (Some L) nCyl None t = (t', Ok tt) ->
  exists used solved, t_r t' = Some (map Fin used) /\ default_r_cyl (N := XN) (map Fin used) (Fin Rt) = map Fin solved /\
    (2 <= len used)%nat /\ len solved = len used /\ (forall i, (i < len used)%nat -> nth i used 0 < nth i solved 0).
Proof.
  intros minim t t' rs Ct Gamma L nCyl Rt HR hR HN. ul. rewrite HR.
  assert (LI : forall r c g, load_interp (N := XN) (Fin Rt) (Some (map Fin rs)) Ct Gamma nCyl = Ok (r, c, g) -> exists used, r = Some (map Fin used) /\ (2 <= len used)%nat /\ increasing used).
  { intros r c g. unfold load_interp. destruct nCyl as [[|[|n]]|]; try lia.
    - assert (E : map (fun x : X => nmul XN x (Fin Rt)) (linspace (N := XN) (nQ XN 5 1000) (nQ XN 995 1000) (S (S n))) = map Fin (map (fun x => x * Rt) (linspace (N := RN) (5 / 1000) (995 / 1000) (S (S n))))).
      { change (nQ XN 5 1000) with (Fin (5 / 1000)). change (nQ XN 995 1000) with (Fin (995 / 1000)). rewrite linspace_X. rewrite !map_map. reflexivity. }
      destruct (linspace_inc (5 / 1000) (995 / 1000) (S (S n)) ltac:(lia) ltac:(lra)) as [I1 I2].
      intros H. exists (map (fun x => x * Rt) (linspace (N := RN) (5 / 1000) (995 / 1000) (S (S n)))).
      split; [|split; [rewrite map_length; change (T RN) with R in *; rewrite I2; lia|apply scale_inc; auto]].
      rewrite <- E. clear - H. destruct Ct as [c0|]; [|destruct Gamma as [g0|]; [|discriminate]].
      + destruct (np_interp (N := XN) _ _ c0); cbn [bind] in H; [|discriminate]. assert (r = Some (map (fun x : XN => nmul XN x (Fin Rt)) (linspace (N := XN) (nQ XN 5 1000) (nQ XN 995 1000) (S (S n))))) as -> by congruence. reflexivity.
      + destruct (np_interp (N := XN) _ _ g0); cbn [bind] in H; [|discriminate]. assert (r = Some (map (fun x : XN => nmul XN x (Fin Rt)) (linspace (N := XN) (nQ XN 5 1000) (nQ XN 995 1000) (S (S n))))) as -> by congruence. reflexivity.
    - intros H. injection H as <- _ _. exists rs. split; [reflexivity|]. exact HN. }
  destruct (load_interp (N := XN) (Fin Rt) (Some (map Fin rs)) Ct Gamma nCyl) as [[[r c] g]|e]; [|discriminate].
  destruct (LI r c g eq_refl) as (used & -> & H2 & HI). clear LI. intros H.
  exists used, (rcR used Rt). assert (Hne : used <> []) by (intros ->; cbn in H2; lia).
  split; [|split; [apply default_r_cyl_X|split; [auto|split; [apply rcR_length; auto|apply rc_strict; auto]]]].
  destruct c as [c|]; [|destruct g as [g|]]; cbv beta in H; cbn [need bind] in H.
  - destruct (WakeVorticityFromCt _ _ _ _ _ _) as [w|e]; [|discriminate]. injection H as <-. reflexivity.
  - destruct (WakeVorticityFromGamma _ _ _ _ _) as [w|e]; [|discriminate]. injection H as <-. reflexivity.
  - discriminate.
Qed.
(** such a loading: two cylinders on the example turbine of P_Ground *)
Example C86_radii_case : forall minim, exists t', 
  update_loading (N := XN) minim (Some (map Fin [20; 40])) None (Some [Fin 3 : XN; Fin 2 : XN]) (Some (Fin 7 : XN)) None None gr_new = (t', Ok tt) /\
  t_R gr_new = Fin 50 /\ increasing [20; 40].
Proof.
  intros minim. unfold update_loading, mbind, mlift, massign, mret. rewrite gr_norm. cbn [load_interp need bind map]. change (t_R gr_new) with (Fin 50).
  unfold WakeVorticityFromGamma, WakeVorticityFromCirculation_Discr. 
  assert (E : default_r_cyl (N := XN) [Fin 20; Fin 40] (Fin 50) = map Fin [30; 50]).
  { pose proof (default_r_cyl_X [20; 40] 50) as Q. cbn [map] in Q. rewrite Q. unfold rcR, default_r_cyl, midpoints. cbn. repeat f_equal; lra. }
  nT. rewrite E. cbn [map].
  match goal with |- context [if nlt XN ?a ?b then Err (ENameError _) else _] => assert (C1 : nlt XN a b = false); [|rewrite C1] end.
  { cbn. unfold Rmax. repeat destruct Rle_dec; apply Rltb_false; lra. }
  match goal with |- context [if neqb XN ?a ?b then Err (EException _) else _] => assert (C2 : neqb XN a b = false); [|rewrite C2] end.
  { cbn. apply Reqb_false; lra. }
  eexists. split; [reflexivity|]. split; [reflexivity|]. intros [|[|i]] H; cbn in *; try lra; lia.
Qed.
