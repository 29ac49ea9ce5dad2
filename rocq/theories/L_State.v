(** * State-machine properties of WindTurbine (any [Num]) *)
From Coq Require Import ZArith List Bool Arith Lia String.
From Verif Require Import Num M_Cylinder M_Solver M_Turbine L_List L_Turbine.
Import ListNotations.
Local Open Scope num_scope.
Local Notation len := List.length.

Section S.
  Context {N : Num}.
  Variable minim : (N -> N) -> N -> N -> N.
  Notation pt := (N * N * N)%type.

  (** Public operations on a turbine object. *)
  Inductive top :=
  | TYaw (yaw : N)
  | TWind (u : pt)
  | TPos (p : pt)
  | TLoad (r Ct Gamma : option (list N)) (Lambda : option N) (nCyl : option nat)
          (f : option (list N -> result (list N)))
  | TSetChi (chi : N)
  | TCompute (o : opts N) (pts : list pt).
  Definition tstep (t : turbine N) (op : top) : turbine N :=
    match op with
    | TYaw y => update_yaw_pos t y
    | TWind u => update_wind t u
    | TPos p => update_position t p
    | TLoad r Ct G L n f => fst (update_loading minim r Ct G L n f t)
    | TSetChi c => set_chi t c
    | TCompute o pts => fst (compute_u t o pts)
    end.
  Definition trun (t : turbine N) (ops : list top) : turbine N := fold_left tstep ops t.

  (** The same configuration, never queried. *)
  Definition forget (t : turbine N) : turbine N := set_chif t None.
  Definition answers_fresh (t : turbine N) : Prop :=
    forall o pts, snd (compute_u t o pts) = snd (compute_u (forget t) o pts).

  Definition is_query (op : top) : bool := match op with TCompute _ _ => true | _ => false end.
  Definition is_set_chi (op : top) : bool := match op with TSetChi _ => true | _ => false end.
  Definition reorients (op : top) : bool :=
    match op with TYaw _ | TWind _ => true | _ => false end.
  (** every re-orientation (yaw or wind) comes before the first query *)
  Fixpoint oriented_first (ops : list top) : bool :=
    match ops with
    | [] => true
    | op :: ops => negb (is_set_chi op) &&
        (if is_query op then forallb (fun p => negb (reorients p) && negb (is_set_chi p)) ops
         else oriented_first ops)
    end.

  Lemma update_loading_frame r Ct G L n f t :
    let t' := fst (update_loading minim r Ct G L n f t) in
    set_gt (set_gl (set_Gr (set_Lambda (set_r (set_Ct t' None) None) None) None) None) None =
    set_gt (set_gl (set_Gr (set_Lambda (set_r (set_Ct t None) None) None) None) None) None.
  Proof.
    cbv zeta. unfold update_loading. unfold mbind at 1, mlift at 1.
    destruct (load_interp _ _ _ _ _) as [[[r' Ct'] G']|e]; [|reflexivity].
    destruct (match L with Some l => Some l | None => t_Lambda t end) as [l|]; [|reflexivity].
    unfold mbind, mlift, massign, mraise.
    destruct f as [f|].
    - destruct Ct' as [c|]; [|reflexivity]. destruct (f c); reflexivity.
    - destruct Ct' as [c|].
      + destruct (let* rr := need r' in _); reflexivity.
      + destruct G' as [g|]; [|reflexivity]. destruct (let* rr := need r' in _); reflexivity.
  Qed.
  Lemma update_loading_fields r Ct G L n f t :
    let t' := fst (update_loading minim r Ct G L n f t) in
    t_R t' = t_R t /\ t_rhub t' = t_rhub t /\ t_shaft t' = t_shaft t /\ t_shaft0 t' = t_shaft0 t /\
    t_vert t' = t_vert t /\ t_horz t' = t_horz t /\ t_TF2g t' = t_TF2g t /\
    t_Tc2wt t' = t_Tc2wt t /\ t_Twt2g t' = t_Twt2g t /\ t_yaw t' = t_yaw t /\ t_U0 t' = t_U0 t /\
    t_ground t' = t_ground t /\ t_chi t' = t_chi t /\ t_model t' = t_model t /\ t_name t' = t_name t.
  Proof.
    cbv zeta. pose proof (update_loading_frame r Ct G L n f t) as H. cbv zeta in H.
    set (t' := fst _) in *. clearbody t'. destruct t, t'. cbn in *. injection H; intros.
    repeat split; auto.
  Qed.
  Lemma update_loading_atomic r Ct G L n f t e :
    snd (update_loading minim r Ct G L n f t) = Err e ->
    fst (update_loading minim r Ct G L n f t) = t.
  Proof.
    unfold update_loading. unfold mbind at 1 3, mlift at 1 3.
    destruct (load_interp _ _ _ _ _) as [[[r' Ct'] G']|e']; [|reflexivity].
    destruct (match L with Some l => Some l | None => t_Lambda t end) as [l|]; [|reflexivity].
    unfold mbind, mlift, massign, mraise.
    destruct f as [f|].
    - destruct Ct' as [c|]; [|reflexivity]. destruct (f c); [discriminate|reflexivity].
    - destruct Ct' as [c|].
      + destruct (let* rr := need r' in _); [discriminate|reflexivity].
      + destruct G' as [g|]; [|reflexivity]. destruct (let* rr := need r' in _); [discriminate|reflexivity].
  Qed.

  (** The cached angle is either absent or the current one. *)
  Definition chi_current (t : turbine N) : Prop := t_chi t = None \/ t_chi t = Some (chi_fresh t).
  Lemma chi_current_fresh (t : turbine N) : chi_current t -> answers_fresh t.
  Proof.
    intros H o pts.
    assert (E : chi_now t = chi_now (forget t)).
    { unfold chi_now. destruct H as [-> | ->]; reflexivity. }
    rewrite !compute_u_terms. unfold terms, finish.
    change (t_gt (forget t)) with (t_gt t). change (t_ground (forget t)) with (t_ground t).
    change (t_model (forget t)) with (t_model t). change (T_c2g (forget t)) with (T_c2g t).
    change (t_rhub (forget t)) with (t_rhub t). change (t_R (forget t)) with (t_R t).
    change (t_U0 (forget t)) with (t_U0 t). rewrite E. reflexivity.
  Qed.
  Lemma chi_fresh_ext (t t' : turbine N) :
    t_Twt2g t = t_Twt2g t' -> t_Tc2wt t = t_Tc2wt t' -> t_vert t = t_vert t' ->
    t_U0 t = t_U0 t' -> t_horz t = t_horz t' -> t_yaw t = t_yaw t' -> chi_fresh t = chi_fresh t'.
  Proof.
    unfold chi_fresh, T_c2g, yaw_wind. intros -> -> -> -> -> ->. reflexivity.
  Qed.
  Lemma step_no_reorient t op :
    reorients op = false -> is_set_chi op = false -> chi_current t -> chi_current (tstep t op).
  Proof.
    intros H1 H2 H. unfold chi_current in *. destruct op; try discriminate; cbn [tstep].
    - exact H.
    - pose proof (update_loading_fields r Ct Gamma Lambda nCyl f t) as F. cbv zeta in F.
      destruct F as (F1 & F2 & F3 & F4 & F5 & F6 & F7 & F8 & F9 & F10 & F11 & F12 & F13 & F14 & F15).
      rewrite F13. rewrite (chi_fresh_ext _ t); auto.
    - right. rewrite compute_u_fst. unfold chi_now. destruct H as [E|E]; rewrite E; reflexivity.
  Qed.
  Lemma step_none t op :
    is_query op = false -> is_set_chi op = false -> t_chi t = None -> t_chi (tstep t op) = None.
  Proof.
    intros H1 H2 H. destruct op; try discriminate; cbn [tstep]; auto.
    pose proof (update_loading_fields r Ct Gamma Lambda nCyl f t) as F. cbv zeta in F.
    destruct F as (F1 & F2 & F3 & F4 & F5 & F6 & F7 & F8 & F9 & F10 & F11 & F12 & F13 & F14 & F15).
    congruence.
  Qed.
  Lemma oriented_first_current ops : forall t,
    t_chi t = None -> oriented_first ops = true -> chi_current (trun t ops).
  Proof.
    induction ops as [|op ops IH]; intros t Ht Ho; [left; auto|].
    simpl in Ho. apply andb_prop in Ho. destruct Ho as [Ho1 Ho2].
    cbn [trun fold_left]. change (fold_left tstep ops (tstep t op)) with (trun (tstep t op) ops).
    destruct (is_query op) eqn:Q.
    - assert (G : chi_current (tstep t op)).
      { apply step_no_reorient; [destruct op; try discriminate; auto| |left; auto].
        now apply negb_true_iff. }
      clear - G Ho2. revert G Ho2. generalize (tstep t op). intros t1 G Ho.
      revert t1 G; induction ops as [|p ops IH]; intros t1 G; auto.
      simpl in Ho. apply andb_prop in Ho. destruct Ho as [Ho1 Ho2].
      apply andb_prop in Ho1. destruct Ho1 as [Ha Hb].
      apply negb_true_iff in Ha. apply negb_true_iff in Hb.
      cbn [trun fold_left]. apply IH; auto. apply step_no_reorient; auto.
    - apply IH; auto. apply step_none; auto. now apply negb_true_iff.
  Qed.

  (** ** only_ind *)
  Definition with_only_ind (b : bool) (o : opts N) : opts N :=
    {| o_only_ind := b; o_longi := o_longi o; o_tang := o_tang o; o_root := o_root o;
       o_no_wake := o_no_wake o; o_ground := o_ground o; o_Model := o_Model o; o_far := o_far o |}.
  Lemma only_ind_spec (t : turbine N) o pts :
    snd (compute_u t (with_only_ind false o) pts) =
    (let* v := snd (compute_u t (with_only_ind true o) pts) in
     Ok (map (fun u => vadd u (t_U0 t)) v)).
  Proof.
    rewrite !compute_u_terms. destruct (t_gt t) as [gs|]; [|reflexivity].
    change (terms t (with_only_ind false o) gs pts) with (terms t o gs pts).
    change (terms t (with_only_ind true o) gs pts) with (terms t o gs pts).
    destruct (terms t o gs pts); reflexivity.
  Qed.

  (** ** no_wake *)
  Definition with_no_wake (b : bool) (o : opts N) : opts N :=
    {| o_only_ind := o_only_ind o; o_longi := o_longi o; o_tang := o_tang o; o_root := o_root o;
       o_no_wake := b; o_ground := o_ground o; o_Model := o_Model o; o_far := o_far o |}.
  Definition local (t : turbine N) (p : pt) : pt :=
    shift (transform_T (T_c2g t) (t_rhub t)) (transform_T (T_c2g t) p).
  Lemma no_wake_spec (t : turbine N) o pts :
    snd (compute_u t (with_no_wake true (with_only_ind true o)) pts) =
    (let* v := snd (compute_u t (with_no_wake false (with_only_ind true o)) pts) in
     Ok (map2 (fun p u => if in_wake_tube (t_R t) (local t p)
                          then transform (T_c2g t) (#0, #0, #0) else u) pts v)).
  Proof.
    rewrite !compute_u_terms. destruct (t_gt t) as [gs|]; [|reflexivity].
    change (terms t (with_no_wake true (with_only_ind true o)) gs pts) with (terms t o gs pts).
    change (terms t (with_no_wake false (with_only_ind true o)) gs pts) with (terms t o gs pts).
    destruct (terms t o gs pts) as [vs|]; [|reflexivity].
    cbn [bind]. f_equal. unfold finish. cbn [with_no_wake o_no_wake with_only_ind o_only_ind].
    rewrite map_map2, !map2_map_l, map2_map_r. apply map2_ext. intros p v.
    unfold local. destruct (in_wake_tube _ _); reflexivity.
  Qed.
End S.
Arguments top : clear implicits.
