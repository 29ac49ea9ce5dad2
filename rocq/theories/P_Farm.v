(** * Properties of WindFarm: C01-C07 *)
From Coq Require Import ZArith List Bool Arith Lia String Permutation Reals Lra.
From Verif Require Import Num NumR NumX Spec M_Cylinder M_Solver M_Turbine M_Farm
  L_List L_Turbine L_State L_Farm L_Layout L_Geom L_Angles L_TurbineX L_TurbineY L_Multi.
Import ListNotations.
Local Notation len := List.length.

(** The objects a farm refers to. *)
Definition members {N : Num} (h : heap N) (f : farm) (ts : list (turbine N)) : Prop :=
  Forall2 (fun i t => nth_error h i = Some (OWT t)) f ts.
Definition vzero {N : Num} : N * N * N := (nZ N 0, nZ N 0, nZ N 0).
(** [v1+v2+...] at control point number [k] *)
Definition total_at {N : Num} (k : nat) (us : list (list (N*N*N))) : N * N * N :=
  fold_left (fun s u => vadd s (nth k u vzero)) us vzero.

Lemma members_answer {N : Num} (h : heap N) f ts o pts us : members h f ts ->
  Forall2 (fun t u => snd (compute_u t (with_only_ind true o) pts) = Ok u) ts us ->
  mapM (answer h o pts) f = Ok us.
Proof.
  intros H; revert us; induction H as [|i t f ts Hi _ IH]; intros us Hu; inversion Hu; subst; auto.
  cbn [mapM]. unfold answer at 1. rewrite Hi. change (farm_opts o) with (with_only_ind true o).
  rewrite H1. cbn [bind]. rewrite (IH l') by auto. reflexivity.
Qed.
Lemma members_answer_err {N : Num} (h : heap N) f ts o pts : members h f ts ->
  Exists (fun t => exists e, snd (compute_u t (with_only_ind true o) pts) = Err e) ts ->
  exists e, mapM (answer h o pts) f = Err e.
Proof.
  intros H; induction H as [|i t f ts Hi _ IH]; intros He; inversion He; subst; cbn [mapM];
    unfold answer at 1; rewrite Hi; change (farm_opts o) with (with_only_ind true o).
  - destruct H0 as [e ->]. cbn [bind]; eauto.
  - destruct (snd (compute_u t (with_only_ind true o) pts)); cbn [bind]; eauto.
    destruct (IH H0) as [e ->]; cbn [bind]; eauto.
Qed.

(** C01.  For every arithmetic [N] (rounding included: the sum is taken in farm
    order), farm, options and points: the field is the sum of the single-turbine
    induced fields, plus U0; and it raises when one turbine raises. *)
Theorem C01_farm_superposition :
  forall (N : Num) (h : heap N) (f : farm) (ts : list (turbine N)) (o : opts N)
         (U0 : option (N*N*N)) (pts : list (N*N*N)),
  members h f ts ->
  (forall us, Forall2 (fun t u => snd (compute_u t (with_only_ind true o) pts) = Ok u) ts us ->
     exists v, snd (velocity_field h f o U0 pts) = Ok v /\ len v = len pts /\
       forall k, (k < len pts)%nat ->
         nth k v vzero = match U0 with
                         | None => total_at k us
                         | Some U => vadd (total_at k us) U
                         end) /\
  (Exists (fun t => exists e, snd (compute_u t (with_only_ind true o) pts) = Err e) ts ->
     exists e, snd (velocity_field h f o U0 pts) = Err e).
Proof.
  intros N h f ts o U0 pts HM. split.
  - intros us Hu. pose proof (members_answer h f ts o pts us HM Hu) as E.
    pose proof (answers_length _ _ _ _ _ E) as HL.
    assert (LS : len (fsum (fzero pts) us) = len pts) by (rewrite fsum_length; rewrite fzero_length; auto).
    exists (add_free U0 (fsum (fzero pts) us)). split; [|split].
    + rewrite velocity_field_spec, E. reflexivity.
    + unfold add_free. destruct U0; [rewrite map_length|]; auto.
    + intros k Hk.
      assert (A : nth k (fsum (fzero pts) us) vzero = total_at k us).
      { change (nth k (fsum (fzero pts) us) vzero) with (at_pt k (fsum (fzero pts) us)).
        rewrite fsum_at by (rewrite ?fzero_length; auto). unfold total_at.
        assert (Z : at_pt k (fzero pts) = vzero).
        { unfold at_pt, fzero, zero3, vzero. clear. revert k; induction pts; intros [|k]; cbn; auto. }
        rewrite Z. clear.
        assert (G : forall us s, fold_left vadd (map (at_pt k) us) s =
                    fold_left (fun s u => vadd s (nth k u (@vzero N))) us s).
        { clear. induction us as [|u us IH]; intros s; cbn [map fold_left]; auto. }
        apply G. }
      unfold add_free. destruct U0 as [U|]; auto.
      rewrite (nth_indep _ vzero (vadd vzero U)) by (rewrite map_length, LS; auto).
      rewrite (map_nth (fun v => vadd v U)), A. reflexivity.
  - intros He. rewrite velocity_field_spec. destruct (members_answer_err h f ts o pts HM He) as [e ->].
    exists e; reflexivity.
Qed.

(** A concrete loaded turbine (extended reals). *)
Definition ex_turb (hub : R3) : turbine XN :=
  set_gl (set_gt (new_turbine (N := XN) (Fin 50) (lift3 hub) (lift3 (1,0,0)%R) (lift3 (0,0,1)%R)
     (lift3 (10,0,0)%R) None (Some (Fin 7)) "" false "VC") (Some [Fin (-3)])) None.
Lemma ex_loaded hub o pts : o_longi o = false -> o_root o = false -> o_Model o = None ->
  exists u, snd (compute_u (ex_turb hub) o pts) = Ok u.
Proof.
  intros H1 H2 H3. rewrite compute_u_terms. cbn [ex_turb set_gl set_gt t_gt].
  fold (ex_turb hub). unfold terms, root_terms. rewrite H2. cbn [bind]. rewrite H3.
  change (t_model (ex_turb hub)) with "VC"%string.
  unfold single_terms.
  match goal with |- context [mapM ?g ?l] => assert (E : exists y, mapM g l = Ok y) end.
  { induction (ylist _ _ _) as [|Y l [y IH]]; [eexists; reflexivity|]. cbn [mapM].
    unfold single1_terms at 1, cu_tang1, gl_active1. rewrite H1. cbn [negb bind String.eqb Ascii.eqb Bool.eqb].
    destruct (o_tang o && _); destruct (skewed (chi_now (ex_turb hub))); cbn [bind]; rewrite IH; eexists; reflexivity. }
  destruct E as [y ->]. cbn [bind]. eexists; reflexivity.
Qed.
Example C01_nonvacuous :
  let h := [OOther; OWT (ex_turb (0,0,0)%R); OWT (ex_turb (500,0,0)%R)] in
  let o := default_opts (N := XN) in
  members h [1; 2]%nat [ex_turb (0,0,0)%R; ex_turb (500,0,0)%R] /\
  exists us, Forall2 (fun t u => snd (compute_u t (with_only_ind true o) [(Fin 1, Fin 2, Fin 3)]) = Ok u)
     [ex_turb (0,0,0)%R; ex_turb (500,0,0)%R] us.
Proof.
  cbv zeta. split; [repeat constructor|].
  destruct (ex_loaded (0,0,0)%R (with_only_ind true default_opts) [(Fin 1, Fin 2, Fin 3)]) as [u1 E1]; auto.
  destruct (ex_loaded (500,0,0)%R (with_only_ind true default_opts) [(Fin 1, Fin 2, Fin 3)]) as [u2 E2]; auto.
  exists [u1; u2]. repeat constructor; auto.
Qed.
(** the empty farm *)
Theorem C01_empty_farm : forall (N : Num) (h : heap N) o U0 pts,
  snd (velocity_field h [] o U0 pts) =
  Ok (map (fun _ => match U0 with None => vzero | Some U => vadd vzero U end) pts).
Proof.
  intros. rewrite velocity_field_spec. cbn [mapM bind]. f_equal. unfold add_free, fsum, fzero; cbn [fold_left].
  destruct U0; auto. rewrite map_map. reflexivity.
Qed.

(** C02.  In the extended reals (infinities and NaN included): concatenation adds,
    reordering changes nothing, also with respect to raising. *)
Theorem C02_concatenation :
  forall (h : heap XN) (f g : farm) (o : opts XN) (pts : list xpt),
  (forall va vb, snd (velocity_field h f o None pts) = Ok va -> snd (velocity_field h g o None pts) = Ok vb ->
     exists v, snd (velocity_field h (f ++ g) o None pts) = Ok v /\ len v = len pts /\
       forall k, (k < len pts)%nat -> nth k v vzero = vadd (nth k va vzero) (nth k vb vzero)) /\
  ((exists e, snd (velocity_field h f o None pts) = Err e) \/
   (exists e, snd (velocity_field h g o None pts) = Err e) ->
     exists e, snd (velocity_field h (f ++ g) o None pts) = Err e).
Proof.
  intros h f g o pts. split; [|apply farm_app_err].
  intros va vb Ha Hb.
  assert (L : forall q w, snd (velocity_field h q o None pts) = Ok w -> len w = len pts).
  { intros q w. rewrite velocity_field_spec. destruct (mapM (answer h o pts) q) as [us|] eqn:E; [|discriminate].
    cbn [bind add_free]. intros H; injection H; intros <-.
    rewrite fsum_length; rewrite fzero_length; auto. eapply answers_length; eauto. }
  pose proof (L _ _ Ha) as La. pose proof (L _ _ Hb) as Lb.
  exists (fadd va vb). split; [apply farm_app; auto|]. split; [rewrite fadd_length; congruence|].
  intros k Hk. apply nth_error_nth. unfold fadd. rewrite map2_nth_error.
  rewrite (nth_error_nth' va vzero) by (rewrite La; auto).
  rewrite (nth_error_nth' vb vzero) by (rewrite Lb; auto). reflexivity.
Qed.
Theorem C02_reordering :
  forall (h : heap XN) (f g : farm) (o : opts XN) U0 (pts : list xpt) v,
  Permutation f g -> snd (velocity_field h f o U0 pts) = Ok v ->
  snd (velocity_field h g o U0 pts) = Ok v.
Proof. exact farm_perm. Qed.
Example C02_nonvacuous :
  let h := [OOther; OWT (ex_turb (0,0,0)%R); OWT (ex_turb (500,0,0)%R)] in
  (exists v, snd (velocity_field h [1; 2]%nat default_opts None [(Fin 1, Fin 2, Fin 3)]) = Ok v) /\
  Permutation [1; 2]%nat [2; 1]%nat.
Proof.
  cbv zeta. split; [|apply perm_swap].
  pose proof C01_nonvacuous as [HM [us Hu]].
  destruct (proj1 (C01_farm_superposition XN _ _ _ default_opts None _ HM) us Hu) as (v & E & _). eauto.
Qed.

(** C03.  Full statement (false of the code: list.extend, insert, += and item
    assignment are inherited unchecked). *)
Definition only_turbines {N : Num} (h : heap N) (f : farm) : Prop := forall i, In i f -> is_wt h i = true.
Definition C03_full (N : Num) : Prop :=
  forall (h : heap N) (ops : list farm_op),
  only_turbines h (fold_left (fun f op => fst (farm_step h f op)) ops []).
Theorem C03_refuted : forall N : Num, ~ C03_full N.
Proof.
  intros N H. specialize (H [OOther] [OpExtend [0%nat]] 0%nat (or_introl eq_refl)). discriminate.
Qed.
(** What holds: append checks; histories of append and pop (and of the other
    operations when they are given turbines) only hold turbines; a rejected append
    changes nothing. *)
Theorem C03_farm_holds_turbines_partial :
  forall (N : Num) (h : heap N),
  (forall ops : list farm_op,
     (forall op, In op ops -> match op with
        | OpAppend _ | OpPop _ => True
        | OpNew l | OpExtend l | OpIadd l => only_turbines h l
        | OpInsert _ i | OpSetItem _ i => is_wt h i = true end) ->
     only_turbines h (fold_left (fun f op => fst (farm_step h f op)) ops [])) /\
  (forall f i, is_wt h i = true -> farm_step h f (OpAppend i) = (f ++ [i], Ok tt)) /\
  (forall f i, is_wt h i = false -> fst (farm_step h f (OpAppend i)) = f /\
     exists e, snd (farm_step h f (OpAppend i)) = Err e).
Proof.
  intros N h. split; [|split].
  - intros ops Hops.
    assert (G : forall ops f, only_turbines h f ->
      (forall op, In op ops -> match op with
        | OpAppend _ | OpPop _ => True
        | OpNew l | OpExtend l | OpIadd l => only_turbines h l
        | OpInsert _ i | OpSetItem _ i => is_wt h i = true end) ->
      only_turbines h (fold_left (fun f op => fst (farm_step h f op)) ops f)).
    { clear. induction ops as [|op ops IH]; intros f Hf Ho; cbn [fold_left]; auto.
      apply IH; [|intros; apply Ho; right; auto].
      pose proof (Ho op (or_introl eq_refl)) as H1.
      intros i. apply farm_append_inv; auto. }
    apply G; auto. intros i [].
  - intros f i H. cbn [farm_step]. rewrite H. reflexivity.
  - intros f i H. cbn [farm_step]. rewrite H. split; [reflexivity|eexists; reflexivity].
Qed.
Example C03_nonvacuous :
  let h := [OWT (ex_turb (0,0,0)%R); OOther] in
  fold_left (fun f op => fst (farm_step h f op)) [OpAppend 0; OpAppend 1; OpInsert 0 0]%nat [] = [0; 0]%nat.
Proof. generalize (ex_turb (0,0,0)%R); intros t. reflexivity. Qed.

(** C04.  Two references to the same object make the round trip impossible, so the
    turbines must be distinct objects (hence _partial). *)
Theorem C04_layout_round_trip_partial :
  forall (N : Num) (h : heap N) (f : farm) (rows : list (N*N*N)),
  NoDup f -> (forall i, In i f -> is_wt h i = true) -> len rows = len f ->
  let L := map (fun p => let '(x, y, z) := p in [x; y; z]) rows in
  let h' := fst (layout_set h f L) in
  snd (layout_set h f L) = Ok tt /\
  layout_get h' f = Ok rows /\
  (forall i, ~ In i f -> nth_error h' i = nth_error h i) /\
  (forall i, In i f -> exists t p, nth_error h i = Some (OWT t) /\ nth_error h' i = Some (OWT (set_rhub t p))).
Proof.
  intros N h f rows HN HW HL. cbv zeta. unfold layout_set.
  rewrite (proj2 (rows3_spec _ rows) eq_refl). rewrite HL, Nat.eqb_refl.
  apply layout_loop_spec; auto.
Qed.
(** a layout of a wrong shape raises and changes nothing *)
Theorem C04_layout_wrong_shape :
  forall (N : Num) (h : heap N) (f : farm) (L : list (list N)),
  (len L <> len f \/ Exists (fun row => len row <> 3%nat) L) ->
  fst (layout_set h f L) = h /\ exists e, snd (layout_set h f L) = Err e.
Proof.
  intros N h f L H. unfold layout_set. destruct (rows3 L) as [rows|] eqn:E; [|split; [auto|eexists; reflexivity]].
  apply rows3_spec in E. subst L. rewrite map_length in H.
  destruct (Nat.eqb_spec (len rows) (len f)) as [HE|HE]; [|split; [auto|eexists; reflexivity]].
  exfalso. destruct H as [H|H]; [congruence|]. apply Exists_exists in H. destruct H as (r & Hr & H3).
  apply in_map_iff in Hr. destruct Hr as ([[x y] z] & <- & _). apply H3. reflexivity.
Qed.
(** the same object twice in the farm: the getter cannot return the two rows *)
Theorem C04_aliasing_refuted :
  exists (h : heap XN) (f : farm) (L : list (list XN)) h', len L = len f /\
    layout_set h f L = (h', Ok tt) /\
    layout_get h' f <> Ok [(Fin 0, Fin 0, Fin 0); (Fin 1, Fin 1, Fin 1)] /\
    L = [[Fin 0; Fin 0; Fin 0]; [Fin 1; Fin 1; Fin 1]].
Proof.
  generalize (ex_turb (0,0,0)%R); intros t.
  exists [OWT t], [0; 0]%nat, [[Fin 0; Fin 0; Fin 0]; [Fin 1; Fin 1; Fin 1]].
  eexists. split; [reflexivity|]. split; [reflexivity|]. split; [|reflexivity].
  cbn. intros H. injection H. intros; lra.
Qed.
Example C04_nonvacuous :
  let h := [OWT (ex_turb (0,0,0)%R); OWT (ex_turb (500,0,0)%R)] in
  NoDup [1; 0]%nat /\ (forall i, In i [1; 0]%nat -> is_wt h i = true) /\
  layout_get (fst (layout_set h [1; 0]%nat [[Fin 1; Fin 2; Fin 3]; [Fin 4; Fin 5; Fin 6]])) [1; 0]%nat
  = Ok [(Fin 1, Fin 2, Fin 3); (Fin 4, Fin 5, Fin 6)].
Proof.
  cbv zeta. generalize (ex_turb (0,0,0)%R), (ex_turb (500,0,0)%R); intros t t'.
  split; [repeat constructor; cbn; intuition lia|]. split; [|reflexivity].
  intros i [<-|[<-|[]]]; reflexivity.
Qed.

(** C05 *)
Theorem C05_gridLayout_positions :
  forall (N : Num) nx (dx : N) nz (dz h : N) (mirror : bool),
  exists xs ys zs, gridLayout nx dx nz (Some dz) h mirror = Ok (xs, ys, zs) /\
    len xs = (nz * nx * if mirror then 2 else 1)%nat /\ len ys = len xs /\ len zs = len xs /\
    forall c i j, (c < if mirror then 2 else 1)%nat -> (i < nz)%nat -> (j < nx)%nat ->
      nth_error xs ((c * nz + i) * nx + j) = Some (nmul N (nZ N (Z.of_nat j - Z.of_nat (nx / 2)%nat)) dx) /\
      nth_error ys ((c * nz + i) * nx + j) = Some (if Nat.eqb c 0 then h else nopp N h) /\
      nth_error zs ((c * nz + i) * nx + j) = Some (nmul N (nZ N (Z.of_nat i)) dz).
Proof. intros. apply gridLayout_positions. Qed.
Example C05_nonvacuous : exists xs ys zs,
  gridLayout (N := RN) 3 2%R 1 (Some 5%R) 7%R false = Ok (xs, ys, zs) /\
  nth_error xs 0 = Some (IZR (-1) * 2)%R /\ len xs = 3%nat.
Proof. eexists _, _, _. split; [reflexivity|]. split; reflexivity. Qed.

(** C06 *)
Theorem C06_gridLayout_distinct :
  forall nx (dx : R) nz (dz h : R) mirror (xs ys zs : list R) k k' (x y z : R),
  dx <> 0%R -> dz <> 0%R -> (mirror = true -> h <> 0%R) ->
  gridLayout (N := RN) nx dx nz (Some dz) h mirror = Ok (xs, ys, zs) ->
  nth_error xs k = Some x -> nth_error ys k = Some y -> nth_error zs k = Some z ->
  nth_error xs k' = Some x -> nth_error ys k' = Some y -> nth_error zs k' = Some z ->
  k = k'.
Proof. exact gridLayout_distinct. Qed.
Example C06_nonvacuous : exists xs ys zs,
  gridLayout (N := RN) 2 1%R 2 (Some 1%R) 1%R true = Ok (xs, ys, zs) /\ len xs = 8%nat.
Proof.
  destruct (gridLayout_positions (N := RN) 2 1%R 2 1%R 1%R true) as (xs & ys & zs & E & L & _).
  exists xs, ys, zs. split; [exact E|exact L].
Qed.

(** C07.  False of the code: with the documented default zSpacing=None the call
    raises TypeError, for every non-empty grid and every arithmetic. *)
Definition C07_full (N : Num) : Prop :=
  forall nx (dx : N) nz (h : N) mirror, exists r, gridLayout nx dx nz None h mirror = Ok r.
Theorem C07_default_spacing_refuted :
  forall (N : Num) nx (dx : N) nz (h : N) mirror, (0 < nx)%nat -> (0 < nz)%nat ->
  gridLayout nx dx nz None h mirror = Err ETypeError.
Proof. intros. apply gridLayout_None; auto. Qed.
Theorem C07_not_full : forall N : Num, ~ C07_full N.
Proof.
  intros N H. destruct (H 1%nat (nZ N 0) 1%nat (nZ N 0) false) as [r E].
  rewrite C07_default_spacing_refuted in E by lia. discriminate.
Qed.
(** with an explicit spacing it never raises *)
Theorem C07_explicit_spacing_partial :
  forall (N : Num) nx (dx : N) nz (dz h : N) mirror, exists r, gridLayout nx dx nz (Some dz) h mirror = Ok r.
Proof. intros. destruct (gridLayout_positions nx dx nz dz h mirror) as (xs & ys & zs & E & _). eauto. Qed.
