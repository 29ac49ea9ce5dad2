(** * C81: update_loading replaces the loading completely *)
From Coq Require Import Reals Lra ZArith List Bool String.
From Verif Require Import Num NumR NumX M_Cylinder M_Solver M_Turbine.
Import ListNotations.

(** two turbines with the same loading attributes *)
Definition same_loading {N : Num} (t t' : turbine N) : Prop :=
  t_r t = t_r t' /\ t_gt t = t_gt t' /\ t_gl t = t_gl t' /\ t_Gr t = t_Gr t' /\ t_Lambda t = t_Lambda t' /\ t_Ct t = t_Ct t'.

Ltac ul := unfold update_loading, mbind, mlift, massign, mraise, mret; cbn [fst snd].
(** the loading after a successful call is determined by the arguments, the radius and the wind; in particular nothing of an
    earlier loading survives, and calls with the same arguments on turbines of equal radius and wind succeed or fail together *)
Theorem C81_last_loading_wins : forall (N : Num) minim r Ct Gamma (L : N) nCyl callback (t1 t2 : turbine N),
  t_R t1 = t_R t2 -> t_U0 t1 = t_U0 t2 ->
  let s1 := update_loading minim r Ct Gamma (Some L) nCyl callback t1 in
  let s2 := update_loading minim r Ct Gamma (Some L) nCyl callback t2 in
  snd s1 = snd s2 /\ (snd s1 = Ok tt -> same_loading (fst s1) (fst s2)).
Proof.
  intros N minim r Ct Gamma L nCyl cb t1 t2 HR HU. cbv zeta. ul. rewrite HR, HU.
  destruct (load_interp (t_R t2) r Ct Gamma nCyl) as [[[r' c'] g']|e]; [|split; [reflexivity|discriminate]]. cbn [fst snd].
  destruct cb as [f|].
  - destruct c' as [c|]; [|split; [reflexivity|discriminate]]. destruct (f c) as [g|e]; cbn; [|split; [reflexivity|discriminate]].
    rewrite ?HR, ?HU. split; [reflexivity|]. intros _. repeat split; cbn; auto.
  - destruct c' as [c|]; [|destruct g' as [g|]; [|split; [reflexivity|discriminate]]];
      cbv beta; (match goal with |- context [bind (need ?r) ?k] => destruct (bind (need r) k) as [w|e0] end);
      cbn [fst snd]; try (split; [reflexivity|discriminate]); split; try reflexivity; intros _; repeat split; cbn; auto.
Qed.
(** what is stored: the solver's answer for the given distributions (no re-interpolation: nCyl = None) *)
Theorem C81_stores_solution : forall (N : Num) minim r (L : N) (t t' : turbine N),
  let U := norm (t_U0 t) in let Omega := ndiv N (nmul N L U) (t_R t) in
  (forall Ct, update_loading minim (Some r) (Some Ct) None (Some L) None None t = (t', Ok tt) ->
     exists w, WakeVorticityFromCt minim r Ct (t_R t) U Omega = Ok w /\
       t_gt t' = Some (w_gt w) /\ t_gl t' = Some (w_gl w) /\ t_Gr t' = w_Gr w /\ t_r t' = Some r /\ t_Ct t' = Some (Some Ct) /\ t_Lambda t' = Some L) /\
  (forall Gamma, update_loading minim (Some r) None (Some Gamma) (Some L) None None t = (t', Ok tt) ->
     exists w, WakeVorticityFromGamma r Gamma (t_R t) U Omega = Ok w /\
       t_gt t' = Some (w_gt w) /\ t_gl t' = Some (w_gl w) /\ t_Gr t' = w_Gr w /\ t_r t' = Some r /\ t_Ct t' = Some None /\ t_Lambda t' = Some L).
Proof.
  intros N minim r L t t'. cbv zeta. split; intros d; ul; cbn [load_interp need bind].
  - destruct (WakeVorticityFromCt minim r d (t_R t) (norm (t_U0 t)) (ndiv N (nmul N L (norm (t_U0 t))) (t_R t))) as [w|e]; [|discriminate].
    intros H. injection H as <-. exists w. cbn. repeat split; reflexivity.
  - destruct (WakeVorticityFromGamma r d (t_R t) (norm (t_U0 t)) (ndiv N (nmul N L (norm (t_U0 t))) (t_R t))) as [w|e]; [|discriminate].
    intros H. injection H as <-. exists w. cbn. repeat split; reflexivity.
Qed.
(** the default nCyl = 1: one cylinder just inside the tip carrying the mean of the distribution, whatever radii are passed *)
Theorem C81_default_is_mean : forall (N : Num) minim r (Ct : list N) (L : N) (t : turbine N),
  update_loading minim r (Some Ct) None (Some L) (Some 1%nat) None t =
  update_loading minim (Some [nmul N (nQ N 995 1000) (t_R t)]) (Some [np_mean Ct]) None (Some L) None None t.
Proof. reflexivity. Qed.
(** such calls exist: one cylinder at 0.995 R (what the default nCyl = 1 produces), any turbine of radius 1, any minimiser *)
Example C81_nonvacuous : forall minim (t : turbine XN), t_R t = Fin 1 ->
  exists t', update_loading (N := XN) minim (Some [Fin (995/1000) : XN]) (Some [Fin (4/10) : XN]) None (Some (Fin 8)) None None t = (t', Ok tt).
Proof.
  intros minim t HR. ul. cbn [load_interp need bind]. unfold WakeVorticityFromCt, WakeVorticityFromCirculation_Discr, default_r_cyl.
  rewrite HR. 
  replace (nlt XN (amax [Fin 1 : XN]) (amax [Fin (995/1000) : XN])) with false by (symmetry; cbn; apply Rltb_false; lra).
  replace (neqb XN (Fin 1) (nZ XN 0)) with false by (symmetry; cbn; apply Reqb_false; lra).
  eexists. reflexivity.
Qed.
