(** * Queries from several threads, at once: C140 *)
From Coq Require Import ZArith List Bool String Arith Lia.
From Verif Require Import Num NumR NumX M_Elliptic M_Line M_Ring M_Doublet M_Misc M_Cylinder M_Skewed M_Solver M_Turbine M_Farm M_Threads L_List L_Turbine L_State L_Farm.
Import ListNotations.
Local Open Scope num_scope.
Local Notation len := List.length.

(** ** Specification *)
Section Spec.
  Context {N : Num}.
  (** the answer to a query if it were the only call made (M_Turbine.v, M_Farm.v); None for an update *)
  Definition alone (h : heap N) (c : call N) : option (result (outcome N)) :=
    let on i (g : turbine N -> result (outcome N)) := Some (match nth_error h i with Some (OWT t) => g t | _ => Err EAttributeError end) in
    match c with
    | QU i o pts => on i (fun t => rmap OVel (snd (compute_u t o pts)))
    | QYawWind i => on i (fun t => Ok (ONum (yaw_wind t)))
    | QYawErr i => on i (fun t => Ok (ONum (yaw_error t)))
    | QDisk i nP => on i (fun t => rmap OVel (rotor_disk_points t nP))
    | QField f o U0 pts => Some (rmap OVel (snd (velocity_field h f o U0 pts)))
    | QLayout f => Some (rmap OVel (layout_get h f))
    | _ => None
    end.
  (** the turbines a call is about *)
  Definition about (c : call N) : list nat :=
    match c with
    | QU i _ _ | QYawWind i | QYawErr i | QDisk i _ | CYaw i _ | CPos i _ | CWind i _ | CChi i _ | CLoad i _ _ _ _ _ _ _ => [i]
    | QField f _ _ _ | QLayout f | CLayout f _ => f
    end.
  Definition is_query_call (c : call N) : bool := match alone [] c with Some _ => true | None => false end.
  (** update_loading creates gamma_l with gamma_t *)
  Definition loaded_ok (t : turbine N) : Prop := t_gt t <> None -> t_gl t <> None.
End Spec.

Section Safe.
  Context {N : Num} (Sel : nat -> bool) (h0 : heap N).
  Notation pt := (N * N * N)%type.
  Hypothesis WF : forall i t, Sel i = true -> nth_error h0 i = Some (OWT t) -> loaded_ok t.
  Definition cached (t : turbine N) : turbine N := set_chif t (Some (chi_now t)).
  (** the heap is the initial one on [Sel], except that skew angles have been cached: certainly where [c] says so *)
  Definition okh (c : nat -> bool) (h : heap N) : Prop := forall i, Sel i = true ->
    match nth_error h0 i, nth_error h i with
    | Some (OWT t), Some (OWT t') => t' = cached t \/ (t' = t /\ c i = false)
    | Some OOther, Some OOther => True
    | None, None => True
    | _, _ => False
    end.
  Fixpoint safe {A} (c : nat -> bool) (p : prog N A) (Q : (nat -> bool) -> result A -> Prop) : Prop :=
    match p with
    | Ret x => Q c x
    | Get i _ a k => forall h, okh c h -> exists c', okh c' h /\ safe c' (k (lookup h i a)) Q
    | Put i _ a v k => forall h, okh c h -> (forall c', okh c' h -> okh c' (store h i a v)) /\ exists c', okh c' (store h i a v) /\ safe c' k Q
    end.
  Lemma safe_then {A B} (p : prog N A) (k : result A -> prog N B) (P : (nat -> bool) -> result A -> Prop) Q : forall c, safe c p P -> (forall c' x, P c' x -> safe c' (k x) Q) -> safe c (thenP p k) Q.
  Proof.
    induction p as [x|i B' a k' IH|i B' a v p IH]; intros c H K; cbn [safe thenP] in *.
    - auto.
    - intros h Hh. destruct (H h Hh) as (c' & O & S). exists c'. split; [exact O|]. apply IH; auto.
    - intros h Hh. destruct (H h Hh) as (P1 & c' & O & S). split; [exact P1|]. exists c'. split; [exact O|]. apply IH; auto.
  Qed.
  Lemma safe_weaken {A} (p : prog N A) (P Q : (nat -> bool) -> result A -> Prop) : forall c, safe c p P -> (forall c' x, P c' x -> Q c' x) -> safe c p Q.
  Proof.
    induction p as [x|i B' a k' IH|i B' a v p IH]; intros c H K; cbn [safe] in *.
    - auto.
    - intros h Hh. destruct (H h Hh) as (c' & O & S). exists c'. split; [exact O|]. eapply IH; eauto.
    - intros h Hh. destruct (H h Hh) as (P1 & c' & O & S). split; [exact P1|]. exists c'. split; [exact O|]. eapply IH; eauto.
  Qed.
  (** programs that assign attributes of turbines outside [Sel] only *)
  Fixpoint outside {A} (p : prog N A) : Prop :=
    match p with
    | Ret _ => True
    | Get i _ a k => forall v, outside (k v)
    | Put i _ a v k => Sel i = false /\ outside k
    end.
  Lemma store_other {B} (h : heap N) i (a : attr B) v j : i <> j -> nth_error (store h i a v) j = nth_error h j.
  Proof. intros H. unfold store. destruct (nth_error h i) as [[t|]|]; auto. apply upd_other; auto. Qed.
  Lemma store_same {B} (h : heap N) i (a : attr B) v t : nth_error h i = Some (OWT t) -> nth_error (store h i a v) i = Some (OWT (put a v t)).
  Proof. intros H. unfold store. rewrite H. apply upd_same. eapply nth_error_some_lt; eauto. Qed.
  Lemma okh_store_outside {B} c (h : heap N) i (a : attr B) v : Sel i = false -> okh c h -> okh c (store h i a v).
  Proof. intros H O j Hj. rewrite store_other by (intros ->; congruence). apply O; auto. Qed.
  Lemma safe_outside {A} (p : prog N A) : forall c, outside p -> safe c p (fun _ _ => True).
  Proof.
    induction p as [x|i B' a k' IH|i B' a v p IH]; intros c H; cbn [safe outside] in *; auto.
    - intros h Hh. exists c. split; [exact Hh|]. apply IH; auto.
    - destruct H as [H1 H2]. intros h Hh. split; [intros; apply okh_store_outside; auto|]. exists c. split; [apply okh_store_outside; auto|]. apply IH; auto.
  Qed.
  Lemma outside_then {A B} (p : prog N A) (k : result A -> prog N B) : outside p -> (forall x, outside (k x)) -> outside (thenP p k).
  Proof. induction p; cbn [outside thenP]; intros; auto. destruct H as [H1 H2]. auto. Qed.
  Lemma outside_bind {A B} (p : prog N A) (k : A -> prog N B) : outside p -> (forall x, outside (k x)) -> outside (bindP p k).
  Proof. intros H K. apply outside_then; auto. intros [a|e]; [auto|exact I]. Qed.
  Lemma outside_read {B} i (a : attr B) : outside (readP i a). Proof. intros v. exact I. Qed.
  Lemma outside_write {B} i (a : attr B) v : Sel i = false -> outside (writeP i a v). Proof. intros H. split; [exact H|exact I]. Qed.
  Lemma outside_lift {A} (r : result A) : outside (lift r). Proof. exact I. Qed.
  Lemma outside_some {B} i (a : attr (option B)) e : outside (someP i a e).
  Proof. apply outside_bind; [apply outside_read|intros; apply outside_lift]. Qed.

  (** ** One turbine of [Sel] *)
  Section One.
    Context (i : nat) (t : turbine N) (HS : Sel i = true) (HT : nth_error h0 i = Some (OWT t)).
    Definition setc (c : nat -> bool) : nat -> bool := fun j => if Nat.eqb j i then true else c j.
    Lemma seen c h : okh c h -> exists t', nth_error h i = Some (OWT t') /\ (t' = cached t \/ (t' = t /\ c i = false)).
    Proof. intros O. specialize (O i HS). rewrite HT in O. destruct (nth_error h i) as [[t'|]|]; try contradiction. exists t'. auto. Qed.
    (** [p] gives [r] and learns nothing *)
    Definition sat {A} (c : nat -> bool) (p : prog N A) (r : result A) : Prop := safe c p (fun c' x => c' = c /\ x = r).
    Lemma sat_lift {A} c (r : result A) : sat c (lift r) r. Proof. split; reflexivity. Qed.
    Lemma sat_bind {A B} c (p : prog N A) (k : A -> prog N B) r f : sat c p r -> (forall a, r = Ok a -> sat c (k a) (f a)) -> sat c (bindP p k) (let* a := r in f a).
    Proof.
      intros H K. eapply safe_then; [exact H|]. intros c' x [-> ->]. destruct r as [a|e]; [apply K; reflexivity|split; reflexivity].
    Qed.
    Lemma sat_bind_ok {A B} c (p : prog N A) (k : A -> prog N B) a r : sat c p (Ok a) -> sat c (k a) r -> sat c (bindP p k) r.
    Proof. intros H K. exact (sat_bind c p k (Ok a) (fun _ => r) H (fun b E => ltac:(injection E as <-; exact K))). Qed.
    Lemma sat_err {A B} c (p : prog N A) (k : A -> prog N B) e : sat c p (Err e) -> sat c (bindP p k) (Err e).
    Proof. intros H. eapply safe_then; [exact H|]. intros c' x [-> ->]. split; reflexivity. Qed.
    Lemma sat_then {A B} c (p : prog N A) (k : result A -> prog N B) r Q : sat c p r -> safe c (k r) Q -> safe c (thenP p k) Q.
    Proof. intros H K. eapply safe_then; [exact H|]. intros c' x [-> ->]. exact K. Qed.
    Lemma sat_read {B} c (a : attr B) : (forall x, get a (set_chif t x) = get a t) -> sat c (readP i a) (Ok (get a t)).
    Proof.
      intros E h O. exists c. split; [exact O|]. destruct (seen c h O) as (t' & Ht & D). cbn [safe]. unfold lookup. rewrite Ht. split; [reflexivity|].
      destruct D as [-> |[-> _]]; [unfold cached; rewrite E|]; reflexivity.
    Qed.
    Lemma sat_chi c : c i = true -> sat c (readP i aChi) (Ok (Some (chi_now t))).
    Proof.
      intros E h O. exists c. split; [exact O|]. destruct (seen c h O) as (t' & Ht & D). cbn [safe]. unfold lookup. rewrite Ht. split; [reflexivity|].
      destruct D as [-> |[_ D]]; [reflexivity|congruence].
    Qed.
    Lemma sat_some {B} c (a : attr (option B)) e b : sat c (readP i a) (Ok (Some b)) -> sat c (someP i a e) (Ok b).
    Proof. intros H. eapply sat_bind_ok; [exact H|apply sat_lift]. Qed.
    Lemma sat_none {B} c (a : attr (option B)) e : sat c (readP i a) (Ok None) -> sat c (someP i a e) (Err e).
    Proof. intros H. eapply sat_bind_ok; [exact H|apply sat_lift]. Qed.
    Lemma okh_setc c h : okh c h -> nth_error h i = Some (OWT (cached t)) -> okh (setc c) h.
    Proof.
      intros O H j Hj. specialize (O j Hj). destruct (Nat.eq_dec j i) as [-> |Nj].
      - rewrite HT, H in *. left. reflexivity.
      - unfold setc. rewrite (proj2 (Nat.eqb_neq j i) Nj). exact O.
    Qed.
    Ltac rd := apply sat_read; reflexivity.
    Ltac nx := eapply sat_bind_ok; [rd|]; cbn [get].
    Lemma sat_yaw_wind c : sat c (yaw_windP i) (Ok (yaw_wind t)).
    Proof. unfold yaw_windP. do 8 nx. apply sat_lift. Qed.
    Lemma sat_yaw_error c : sat c (yaw_errorP i) (Ok (yaw_error t)).
    Proof. unfold yaw_errorP. do 5 nx. apply sat_lift. Qed.
    Lemma sat_disk c nP : sat c (rotor_diskP i nP) (rotor_disk_points t nP).
    Proof.
      unfold rotor_diskP, rotor_disk_points. do 2 nx. eapply sat_bind; [apply sat_lift|]. intros o _. generalize (linspace (N := N) (#0) (#2 * npi N) nP). intros ths.
      induction ths as [|th ths IH]; [apply sat_lift|]. cbn [disk_loopP map]. do 2 nx. eapply sat_bind_ok; [exact IH|]. apply sat_lift.
    Qed.
    (** the skew angle is found or stored *)
    Lemma safe_chi c : safe c (chiP i (mvec (mtr (T_c2g t)) (t_vert t))) (fun c' x => c' i = true /\ x = Ok tt).
    Proof.
      unfold chiP. eapply safe_then with (P := fun c' x => (c' i = true /\ x = Ok (Some (chi_now t))) \/ (t_chi t = None /\ x = Ok None)).
      - intros h O. destruct (seen c h O) as (t' & Ht & D). destruct (t_chi t) as [x|] eqn:E.
        + exists (setc c). assert (ET : cached t = t) by (unfold cached, chi_now; rewrite E; destruct t; cbn in *; subst; reflexivity).
          assert (E' : t' = cached t) by (destruct D as [-> |[-> _]]; [reflexivity|auto]). split; [apply okh_setc; [exact O|rewrite Ht, E'; reflexivity]|].
          left. unfold setc. rewrite Nat.eqb_refl. split; [reflexivity|]. unfold lookup. rewrite Ht, E'. reflexivity.
        + destruct D as [-> |[-> D]].
          * exists (setc c). split; [apply okh_setc; auto|]. left. unfold setc. rewrite Nat.eqb_refl. split; [reflexivity|]. unfold lookup. rewrite Ht. reflexivity.
          * exists c. split; [exact O|]. right. split; [reflexivity|]. unfold lookup. rewrite Ht. cbn [get]. rewrite E. reflexivity.
      - intros c' x [[H1 ->]|[H1 ->]]; [split; [exact H1|reflexivity]|].
        assert (G : sat c' (bindP (yaw_windP i) (fun w => bindP (readP i aYaw) (fun y => lift (Ok (nsign N (snd (fst (mvec (mtr (T_c2g t)) (t_vert t)))) * (w - y)))))) (Ok (chi_now t))).
        { eapply sat_bind_ok; [apply sat_yaw_wind|]. nx. unfold chi_now. rewrite H1. apply sat_lift. }
        eapply sat_then; [apply sat_yaw_wind|]. eapply sat_then; [apply (sat_read _ aYaw); reflexivity|]. cbn [get].
        assert (E : nsign N (snd (fst (mvec (mtr (T_c2g t)) (t_vert t)))) * (yaw_wind t - t_yaw t) = chi_now t) by (unfold chi_now; rewrite H1; reflexivity).
        rewrite E. clear G E. intros h O. cbn [writeP].
        assert (K : forall c'', okh c'' h -> nth_error (store h i aChi (Some (chi_now t))) i = Some (OWT (cached t))).
        { intros c'' O''. destruct (seen c'' h O'') as (t' & Ht & D). rewrite (store_same h i aChi _ t' Ht). cbn [put]. destruct D as [-> |[-> _]]; reflexivity. }
        assert (P1 : forall c'', okh c'' h -> okh c'' (store h i aChi (Some (chi_now t)))).
        { intros c'' O'' j Hj. destruct (Nat.eq_dec i j) as [<- |Nj]; [rewrite (K c'' O''), HT; left; reflexivity|]. rewrite store_other by auto. apply O''. auto. }
        split; [exact P1|]. exists (setc c'). split; [apply okh_setc; [apply P1; exact O|apply (K c' O)]|]. split; [unfold setc; rewrite Nat.eqb_refl; reflexivity|reflexivity].
    Qed.
    (** ** Once the angle is cached *)
    Section Known.
      Context (c : nat -> bool) (HC : c i = true).
      Let chi := chi_now t.
      Let m := ntan N chi.
      Lemma sat_skewed : sat c (skewedP i) (Ok (skewed chi)).
      Proof. eapply sat_bind_ok; [apply sat_some, sat_chi; exact HC|]. apply sat_lift. Qed.
      Lemma sat_root o Yl u : sat c (rootP i o m Yl u) (cu_root t o chi Yl u).
      Proof.
        unfold rootP, cu_root. destruct (o_root o); [|apply sat_lift]. nx. destruct (t_Gr t) as [G|] eqn:EG; [|apply sat_lift].
        assert (SG : sat c (someP i aGr ETypeError) (Ok G)) by (apply sat_some; rewrite <- EG; rd).
        eapply sat_bind_ok; [exact SG|]. destruct (neqb N G (nZ N 0)); [apply sat_lift|].
        set (St := fun acc Y => _ : result (list pt)). assert (HE : forall Yl e, fold_left St Yl (Err e) = Err e) by (clear; induction Yl; cbn; auto).
        revert u. induction Yl as [|Y Yl IH]; intros u; [apply sat_lift|]. cbn [root_loopP fold_left]. eapply sat_bind_ok; [apply sat_skewed|]. eapply sat_bind_ok; [exact SG|]. fold m.
        unfold St at 2. cbn [bind]. fold m. destruct (if skewed chi then svc_root_u G m false Y else Ok (vc_root_u G false Y)) as [v|e] eqn:E.
        - eapply sat_bind_ok; [apply sat_lift|]. cbn [bind]. apply IH.
        - cbn [bind]. rewrite HE. apply sat_err, sat_lift.
      Qed.
      Lemma sat_one g : t_gt t = Some [g] -> sat c (oneP i aGt) (Ok g).
      Proof. intros E. eapply sat_bind_ok; [apply sat_some; rewrite <- E; rd|]. apply sat_lift. Qed.
      Lemma sat_tang1 o Model g Y : t_gt t = Some [g] -> sat c (tang1P i o Model m Y) (cu_tang1 t o Model chi g Y).
      Proof.
        intros E. pose proof (sat_one g E) as SG. unfold tang1P, cu_tang1. fold m. eapply sat_bind_ok; [apply sat_skewed|]. destruct (skewed chi).
        - destruct (String.eqb Model "VC"); [|apply sat_lift]. eapply sat_bind_ok; [exact SG|]. nx. apply sat_lift.
        - destruct (String.eqb Model "VC"); [eapply sat_bind_ok; [exact SG|]; nx; apply sat_lift|].
          destruct (String.eqb Model "VCFF"); [eapply sat_bind_ok; [exact SG|]; nx; apply sat_lift|].
          destruct (String.eqb Model "VD"); [eapply sat_bind_ok; [exact SG|]; nx; apply sat_lift|].
          destruct (String.eqb Model "SS"); [eapply sat_bind_ok; [exact SG|]; nx; apply sat_lift|]. apply sat_lift.
      Qed.
      Lemma sat_gl e l : t_gl t = Some l -> sat c (someP i aGl e) (Ok l).
      Proof. intros E. apply sat_some. rewrite <- E. rd. Qed.
      Lemma sat_glP l : t_gl t = Some (Some l) -> sat c (glP i) (Ok l).
      Proof. intros E. eapply sat_bind_ok; [apply sat_gl; exact E|]. apply sat_lift. Qed.
      Lemma sat_longi1 o Model Y u : sat c (longi1P i o Model m Y u)
        (let* gl := gl_active1 t (o_longi o) in match gl with Some gl => let* v := cu_longi1 t Model chi gl Y in Ok (fadd u v) | None => Ok u end).
      Proof.
        unfold longi1P, gl_active1. destruct (o_longi o); cbn [negb]; [|apply sat_lift]. destruct (t_gl t) as [gl|] eqn:E.
        2:{ cbn [bind]. apply sat_err, sat_none. rewrite <- E. rd. }
        eapply sat_bind_ok; [apply sat_gl; exact E|]. destruct gl as [l|]; [|apply sat_lift]. eapply sat_bind_ok; [apply sat_glP; exact E|].
        destruct l as [|g [|g' l]]; [apply sat_lift| |apply sat_lift]. cbn [bind]. destruct (neqb N g (nZ N 0)); [apply sat_lift|].
        eapply sat_bind_ok; [apply sat_skewed|].
        assert (S1 : sat c (bindP (glP i) (fun l => lift (match l with [g] => Ok g | _ => Err EValueError end))) (Ok g)) by (eapply sat_bind_ok; [apply sat_glP; exact E|apply sat_lift]).
        unfold cu_longi1. fold m. eapply sat_bind; [|intros; apply sat_lift]. destruct (skewed chi).
        - destruct (String.eqb Model "VC"); [|apply sat_lift]. eapply sat_bind_ok; [exact S1|]. nx. apply sat_lift.
        - destruct (String.eqb Model "VC"); [|apply sat_lift]. eapply sat_bind_ok; [exact S1|]. nx. apply sat_lift.
      Qed.
      Lemma sat_single o Model g Yl : t_gt t = Some [g] -> forall u, sat c (single_loopP i o Model m Yl u) (cu_single t o Model chi g Yl u).
      Proof.
        intros E. unfold cu_single. set (St := fun acc Y => _ : result (list pt)). assert (HE : forall Yl e, fold_left St Yl (Err e) = Err e) by (clear; induction Yl; cbn; auto).
        induction Yl as [|Y Yl IH]; intros u; [apply sat_lift|]. cbn [single_loopP fold_left].
        assert (EQ : fold_left St Yl (St (Ok u) Y) = (let* u1 := (if o_tang o && negb (neqb N g (nZ N 0)) then let* v := cu_tang1 t o Model chi g Y in Ok (fadd u v) else Ok u) in
          let* u2 := (let* gl := gl_active1 t (o_longi o) in match gl with Some gl => let* v := cu_longi1 t Model chi gl Y in Ok (fadd u1 v) | None => Ok u1 end) in fold_left St Yl (Ok u2))).
        { unfold St at 2. cbn [bind]. destruct (if o_tang o && _ then _ else _) as [u1|e]; cbn [bind]; [|apply HE].
          destruct (let* gl := gl_active1 t (o_longi o) in _) as [u2|e]; cbn [bind]; [reflexivity|apply HE]. }
        rewrite EQ. clear EQ. eapply sat_bind.
        - destruct (o_tang o); cbn [andb]; [|apply sat_lift]. eapply sat_bind_ok; [apply sat_one; exact E|]. destruct (neqb N g (nZ N 0)); cbn [negb]; [apply sat_lift|].
          eapply sat_bind; [apply sat_tang1; exact E|]. intros; apply sat_lift.
        - intros u1 _. eapply sat_bind; [apply sat_longi1|]. intros u2 _. apply IH.
      Qed.
      Lemma sat_multi o Model gs ground cyl pts u : t_gt t = Some gs -> t_gl t <> None -> sat c (multiP i o Model m ground cyl pts u) (cu_multi t o Model chi gs ground cyl pts u).
      Proof.
        intros E NG. unfold multiP, cu_multi. fold m. destruct (String.eqb Model "VC"); [|apply sat_lift]. destruct (t_r t) as [r|] eqn:Er.
        2:{ apply sat_err, sat_none. rewrite <- Er. rd. }
        destruct (t_gl t) as [gl|] eqn:Eg; [|congruence].
        assert (SR : sat c (someP i ar ETypeError) (Ok r)) by (apply sat_some; rewrite <- Er; rd).
        eapply sat_bind_ok; [exact SR|]. eapply sat_bind_ok; [apply sat_some; rewrite <- E; rd|]. destruct (negb (Nat.eqb (len gs) (len r))); [apply sat_lift|].
        eapply sat_bind_ok; [apply sat_gl; exact Eg|].
        destruct gl as [l|].
        - destruct (negb (Nat.eqb (len l) (len r))) eqn:EL.
          { apply sat_err. eapply sat_bind_ok; [apply sat_glP; exact Eg|rewrite EL; apply sat_lift]. }
          eapply sat_bind_ok; [eapply sat_bind_ok; [apply sat_glP; exact Eg|rewrite EL; apply sat_lift]|]. eapply sat_bind_ok; [exact SR|]. rewrite Nat.eqb_refl. cbn [negb].
          eapply sat_bind_ok; [instantiate (1 := if o_tang o then _ else _); destruct (o_tang o); [eapply sat_bind_ok; [apply sat_skewed|]; apply sat_lift|apply sat_lift]|].
          destruct (o_longi o); [|apply sat_lift]. eapply sat_bind_ok; [apply sat_gl; exact Eg|]. eapply sat_bind_ok; [apply sat_skewed|]. apply sat_lift.
        - eapply sat_bind_ok; [apply sat_lift|]. eapply sat_bind_ok; [exact SR|]. rewrite Nat.eqb_refl. cbn [negb].
          eapply sat_bind_ok; [instantiate (1 := if o_tang o then _ else _); destruct (o_tang o); [eapply sat_bind_ok; [apply sat_skewed|]; apply sat_lift|apply sat_lift]|].
          destruct (o_longi o); [|apply sat_lift]. eapply sat_bind_ok; [apply sat_gl; exact Eg|]. apply sat_lift.
      Qed.
    End Known.
    Lemma safe_induced c o pts : safe c (inducedP i o pts) (fun c' x => c' i = true /\ x = snd (compute_u t (with_only_ind true o) pts)).
    Proof.
      unfold inducedP, compute_u. cbn [snd with_only_ind o_only_ind o_ground o_Model o_no_wake].
      eapply sat_then with (r := Ok (match o_ground o with Some g => g | None => t_ground t end)); [destruct (o_ground o); [apply sat_lift|rd]|].
      eapply sat_then with (r := Ok (match o_Model o with Some m => m | None => t_model t end)); [destruct (o_Model o); [apply sat_lift|rd]|].
      set (ground := match o_ground o with Some g => g | None => t_ground t end). set (Model := match o_Model o with Some m => m | None => t_model t end).
      do 3 (eapply sat_then; [rd|]; cbn [get]). fold (T_c2g t).
      eapply safe_then; [apply safe_chi|]. intros c' x [HC ->].
      eapply sat_then; [rd|]. cbn [get]. destruct (t_gt t) as [gs|] eqn:EG; [|split; [exact HC|reflexivity]].
      assert (NG : t_gl t <> None) by (apply (WF i t HS HT); congruence).
      match goal with |- safe _ ?p (fun cc xx => _ /\ xx = ?r) => apply (safe_weaken p (fun dd yy => dd = c' /\ yy = r)); [|intros dd yy [H1 H2]; split; [rewrite H1; exact HC|exact H2]] end.
      match goal with |- safe _ ?p (fun cc xx => _ /\ xx = ?r) => change (sat c' p r) end.
      eapply sat_bind_ok; [apply sat_some, sat_chi; exact HC|]. do 3 nx. 
      assert (EH : (fst (fst (t_rhub t)), snd (fst (t_rhub t)), snd (t_rhub t)) = t_rhub t) by (destruct (t_rhub t) as [[a b] d]; reflexivity). rewrite EH.
      change (cu_root t (with_only_ind true o)) with (cu_root t o). change (cu_single t (with_only_ind true o)) with (cu_single t o). change (cu_multi t (with_only_ind true o)) with (cu_multi t o).
      eapply sat_bind; [apply sat_root; exact HC|]. intros u _. eapply sat_bind_ok; [apply sat_some; rewrite <- EG; rd|].
      eapply sat_bind.
      - destruct gs as [|g [|g' gs]]; cbn [List.length Nat.eqb]; [apply sat_multi; auto|apply sat_single; auto|apply sat_multi; auto].
      - intros u' _. eapply sat_bind_ok.
        { instantiate (1 := if o_no_wake o then _ else _). destruct (o_no_wake o); [do 2 nx; apply sat_lift|apply sat_lift]. }
        apply sat_lift.
    Qed.
    Lemma safe_compute_u c o pts : safe c (compute_uP i o pts) (fun _ x => x = snd (compute_u t o pts)).
    Proof.
      assert (EU : (fst (fst (t_U0 t)), snd (fst (t_U0 t)), snd (t_U0 t)) = t_U0 t) by (destruct (t_U0 t) as [[a b] d]; reflexivity).
      eapply safe_then; [apply safe_induced|]. intros c' x [_ ->].
      match goal with |- safe c' ?p (fun _ x => x = ?r) => cut (sat c' p r); [intros H; eapply safe_weaken; [exact H|]; intros c2 x [_ H2]; exact H2|] end.
      destruct (o_only_ind o) eqn:EO.
      - assert (E : with_only_ind true o = o) by (destruct o; cbn in *; subst; reflexivity). rewrite E. destruct (snd (compute_u t o pts)); apply sat_lift.
      - assert (E : with_only_ind false o = o) by (destruct o; cbn in *; subst; reflexivity). rewrite <- E at 2. rewrite only_ind_spec. destruct (snd (compute_u t (with_only_ind true o) pts)); cbn [bind]; [|apply sat_lift].
        do 3 nx. rewrite EU. apply sat_lift.
    Qed.
  End One.
  (** ** Programs about turbines outside [Sel] *)
  Ltac out :=
    repeat first
      [ apply outside_bind; [|intros ?] | apply outside_read | apply outside_lift | apply outside_some | (apply outside_write; assumption)
      | match goal with |- outside (if ?b then _ else _) => destruct b end
      | match goal with |- outside (match ?x with _ => _ end) => destruct x end ].
  Lemma outside_root_loop i m Yl : forall u, outside (root_loopP i m Yl u).
  Proof. induction Yl as [|Y Yl IH]; intros u; cbn [root_loopP]; unfold skewedP; out. apply IH. Qed.
  Lemma outside_one i a : outside (oneP i a). Proof. unfold oneP. out. Qed.
  Lemma outside_gl i : outside (glP i). Proof. unfold glP. out. Qed.
  Lemma outside_single_loop i o Model m Yl : forall u, outside (single_loopP i o Model m Yl u).
  Proof.
    induction Yl as [|Y Yl IH]; intros u; cbn [single_loopP]; unfold tang1P, longi1P, skewedP; out; try apply outside_one; try apply outside_gl. apply IH.
  Qed.
  Lemma outside_yaw_wind i : outside (yaw_windP i). Proof. unfold yaw_windP. out. Qed.
  Lemma outside_chi i v : Sel i = false -> outside (chiP i v).
  Proof. intros H. unfold chiP. out; try apply outside_yaw_wind. Qed.
  Lemma outside_compute_u i o pts : Sel i = false -> outside (compute_uP i o pts).
  Proof.
    intros H. unfold compute_uP, inducedP, rootP, multiP, skewedP. out; try apply outside_root_loop; try apply outside_single_loop; try apply outside_gl; try (apply outside_chi; auto).
  Qed.
  Lemma outside_disk i nP : outside (rotor_diskP i nP).
  Proof. unfold rotor_diskP. out. generalize (linspace (N := N) (#0) (#2 * npi N) nP) as l. intros l. induction l; cbn [disk_loopP]; out. exact IHl. Qed.
  Lemma outside_layout_get f : outside (layout_getP f).
  Proof. induction f; cbn [layout_getP]; out. exact IHf. Qed.
  Lemma outside_layout_loop f : (forall i, In i f -> Sel i = false) -> forall rows, outside (layout_loopP f rows).
  Proof. induction f as [|i f IH]; intros H [|p rows]; cbn [layout_loopP]; out; try exact I; [apply outside_write; apply H; left; reflexivity|]. apply IH. intros j Hj. apply H. right. exact Hj. Qed.
  Lemma outside_load i minim r Ct G L n f : Sel i = false -> outside (loadP i minim r Ct G L n f).
  Proof. intros H. unfold loadP, assign3P. out; apply outside_write; exact H. Qed.
  Lemma outside_map {A B} (f : A -> B) (p : prog N A) : outside p -> outside (mapP f p).
  Proof. intros H. apply outside_then; [exact H|intros; exact I]. Qed.

  (** ** Calls *)
  Lemma safe_missing {A} c i (k : unit -> prog N A) : Sel i = true -> (forall t, nth_error h0 i <> Some (OWT t)) -> safe c (bindP (readP i aClass) k) (fun _ x => x = Err EAttributeError).
  Proof.
    intros HS HN h O. exists c. split; [exact O|]. specialize (O i HS). cbn [safe]. unfold lookup. destruct (nth_error h i) as [[t|]|]; [|reflexivity..].
    destruct (nth_error h0 i) as [[t0|]|]; try contradiction. exfalso. apply (HN t0). reflexivity.
  Qed.
  Lemma safe_class {A} c i t (k : unit -> prog N A) Q : Sel i = true -> nth_error h0 i = Some (OWT t) -> safe c (k tt) Q -> safe c (bindP (readP i aClass) k) Q.
  Proof. intros HS HT K. eapply sat_then; [apply (sat_read i t HS HT); reflexivity|exact K]. Qed.
  Lemma safe_map {A B} (f : A -> B) c (p : prog N A) r : safe c p (fun _ x => x = r) -> safe c (mapP f p) (fun _ x => x = rmap f r).
  Proof. intros H. eapply safe_then; [exact H|]. intros c' x ->. reflexivity. Qed.
  Lemma sat_safe {A} c (p : prog N A) r : sat c p r -> safe c p (fun _ x => x = r).
  Proof. intros H. eapply safe_weaken; [exact H|]. intros c' x [_ E]. exact E. Qed.
  Lemma safe_field_loop o pts : forall f c u, (forall i, In i f -> Sel i = true) ->
    safe c (field_loopP f o pts u) (fun _ x => x = (let* us := mapM (answer h0 o pts) f in Ok (fsum u us))).
  Proof.
    induction f as [|i f IH]; intros c u H; [reflexivity|]. cbn [field_loopP mapM]. assert (HS : Sel i = true) by (apply H; left; reflexivity). unfold answer at 1.
    destruct (nth_error h0 i) as [[t|]|] eqn:HT.
    - apply (safe_class c i t); auto. eapply safe_then; [apply (safe_compute_u i t HS HT)|]. intros c' x ->. destruct (snd (compute_u t (farm_opts o) pts)) as [v|e]; [|reflexivity]. cbn [bind].
      eapply safe_weaken; [apply IH; intros j Hj; apply H; right; exact Hj|]. intros c2 x ->. destruct (mapM (answer h0 o pts) f); reflexivity.
    - apply safe_missing; auto. intros t. rewrite HT. discriminate.
    - apply safe_missing; auto. intros t. rewrite HT. discriminate.
  Qed.
  Lemma safe_layout_get : forall f c, (forall i, In i f -> Sel i = true) -> safe c (layout_getP f) (fun _ x => x = layout_get h0 f).
  Proof.
    induction f as [|i f IH]; intros c H; [reflexivity|]. cbn [layout_getP]. unfold layout_get. cbn [mapM]. fold (layout_get h0 f). assert (HS : Sel i = true) by (apply H; left; reflexivity). unfold obj_pos at 1.
    destruct (nth_error h0 i) as [[t|]|] eqn:HT.
    - eapply sat_then; [apply (sat_read i t HS HT); reflexivity|]. cbn [get]. eapply safe_then; [apply IH; intros j Hj; apply H; right; exact Hj|]. intros c' x ->. cbn [bind]. destruct (layout_get h0 f); reflexivity.
    - intros h O. exists c. split; [exact O|]. specialize (O i HS). rewrite HT in O. unfold lookup. destruct (nth_error h i) as [[t|]|]; try contradiction. reflexivity.
    - intros h O. exists c. split; [exact O|]. specialize (O i HS). rewrite HT in O. unfold lookup. destruct (nth_error h i) as [[t|]|]; try contradiction. reflexivity.
  Qed.
  Lemma safe_query c q r : (forall i, In i (about q) -> Sel i = true) -> alone h0 q = Some r -> safe c (callP q) (fun _ x => x = r).
  Proof.
    intros HA E.
    assert (ONE : forall A i (p : prog N A) (F : A -> outcome N) (g : turbine N -> result A), Sel i = true -> (forall t, nth_error h0 i = Some (OWT t) -> safe c p (fun _ x => x = g t)) ->
      safe c (bindP (readP i aClass) (fun _ => mapP F p)) (fun _ x => x = match nth_error h0 i with Some (OWT t) => rmap F (g t) | _ => Err EAttributeError end)).
    { intros A i p F g HS K. destruct (nth_error h0 i) as [[t|]|] eqn:HT.
      - apply (safe_class c i t); auto. apply safe_map. auto.
      - apply safe_missing; auto. intros t. rewrite HT. discriminate.
      - apply safe_missing; auto. intros t. rewrite HT. discriminate. }
    destruct q as [i o pts|i|i|i nP|f o U0 pts|f| | | | | |]; try discriminate E; cbn [alone] in E; injection E as <-; cbn [callP about] in *;
      try (assert (HS : Sel i = true) by (apply HA; left; reflexivity)).
    - apply (ONE _ i (compute_uP i o pts) OVel (fun t => snd (compute_u t o pts)) HS). intros t HT. apply (safe_compute_u i t HS HT).
    - apply (ONE _ i (yaw_windP i) ONum (fun t => Ok (yaw_wind t)) HS). intros t HT. apply sat_safe, (sat_yaw_wind i t HS HT).
    - apply (ONE _ i (yaw_errorP i) ONum (fun t => Ok (yaw_error t)) HS). intros t HT. apply sat_safe, (sat_yaw_error i t HS HT).
    - apply (ONE _ i (rotor_diskP i nP) OVel (fun t => rotor_disk_points t nP) HS). intros t HT. apply sat_safe, (sat_disk i t HS HT).
    - apply safe_map. rewrite velocity_field_spec. eapply safe_then; [apply safe_field_loop; exact HA|]. intros c' x ->. destruct (mapM (answer h0 o pts) f); reflexivity.
    - apply safe_map. apply safe_layout_get. exact HA.
  Qed.
  Lemma safe_field_any o pts : forall f c u, safe c (field_loopP f o pts u) (fun _ _ => True).
  Proof.
    induction f as [|i f IH]; intros c u; [exact I|]. cbn [field_loopP].
    assert (K : forall c' (x : result (list pt)), safe c' (match x with Ok v => field_loopP f o pts (fadd u v) | Err e => Ret (Err e) end) (fun _ _ => True)) by (intros c' [v|e]; [apply IH|exact I]).
    destruct (Sel i) eqn:HS.
    - destruct (nth_error h0 i) as [[t|]|] eqn:HT.
      + apply (safe_class c i t); auto. eapply safe_then; [apply (safe_compute_u i t HS HT)|]. intros; apply K.
      + eapply safe_weaken; [apply safe_missing; auto; intros t; rewrite HT; discriminate|auto].
      + eapply safe_weaken; [apply safe_missing; auto; intros t; rewrite HT; discriminate|auto].
    - eapply safe_then; [apply (safe_outside (readP i aClass)); apply outside_read|]. intros c' [[]|e] _; [|exact I]. eapply safe_then; [apply safe_outside, outside_compute_u; exact HS|]. intros; apply K.
  Qed.
  Lemma safe_any c q : (is_query_call q = false -> forall i, In i (about q) -> Sel i = false) -> safe c (callP q) (fun _ _ => True).
  Proof.
    intros H.
    assert (ONE : forall i, about q = [i] -> Sel i = true -> is_query_call q = true -> safe c (callP q) (fun _ _ => True)).
    { intros i E HS Q. unfold is_query_call in Q. destruct (alone h0 q) as [r|] eqn:EA; [|destruct q; discriminate]. eapply safe_weaken; [apply (safe_query c q r); [rewrite E; intros j [<- |[]]; exact HS|exact EA]|auto]. }
    destruct q as [i o pts|i|i|i nP|f o U0 pts|f|i yaw|i p|i p|i x|i minim r Ct G L n g|f l];
      try (destruct (Sel i) eqn:HS; [first [apply (ONE i); auto; fail | exfalso; specialize (H eq_refl i (or_introl eq_refl)); congruence]|]);
      try (cbn [callP]; apply safe_outside, outside_bind; [apply outside_read|intros _; apply outside_map]).
    - apply outside_compute_u; exact HS.
    - apply outside_yaw_wind.
    - unfold yaw_errorP. out.
    - apply outside_disk.
    - cbn [callP]. eapply (safe_then _ _ (fun _ _ => True)); [|intros c' x _; exact I]. eapply (safe_then _ _ (fun _ _ => True)); [apply safe_field_any|]. intros c' [v|e] _; exact I.
    - cbn [callP]. apply safe_outside, outside_map, outside_layout_get.
    - unfold yawP. out.
    - apply outside_write; exact HS.
    - apply outside_write; exact HS.
    - apply outside_write; exact HS.
    - apply outside_load; exact HS.
    - cbn [callP]. apply safe_outside, outside_map. unfold layout_setP. out. apply outside_layout_loop. apply H. reflexivity.
  Qed.
  Lemma safe_call c q : (is_query_call q = false -> forall i, In i (about q) -> Sel i = false) ->
    safe c (callP q) (fun _ x => is_query_call q = true -> (forall i, In i (about q) -> Sel i = true) -> alone h0 q = Some x).
  Proof.
    intros H. destruct (is_query_call q) eqn:Q; [|eapply safe_weaken; [apply safe_any; intros _; exact (H eq_refl)|]; intros; discriminate].
    destruct (forallb Sel (about q)) eqn:F.
    - destruct (alone h0 q) as [r|] eqn:EA; [|unfold is_query_call in Q; destruct q; discriminate].
      eapply safe_weaken; [apply (safe_query c q r); [intros i Hi; rewrite forallb_forall in F; apply F; exact Hi|exact EA]|]. intros c' x -> _ _. reflexivity.
    - eapply safe_weaken; [apply safe_any; rewrite Q; discriminate|]. intros c' x _ _ K. exfalso. assert (T : forallb Sel (about q) = true) by (apply forallb_forall; exact K). congruence.
  Qed.
  Definition kept (q : call N) (r : result (outcome N)) : Prop := is_query_call q = true -> (forall i, In i (about q) -> Sel i = true) -> alone h0 q = Some r.
  Lemma safe_thread cs : (forall q, In q cs -> is_query_call q = false -> forall i, In i (about q) -> Sel i = false) ->
    forall c, safe c (thread cs) (fun _ x => exists rs, x = Ok rs /\ Forall2 kept cs rs).
  Proof.
    induction cs as [|q cs IH]; intros H c; cbn [thread]; [exists []; split; [reflexivity|constructor]|].
    eapply safe_then; [apply (safe_call c q); apply H; left; reflexivity|]. intros c' r K. eapply safe_then; [apply IH; intros q' Hq; apply H; right; exact Hq|].
    intros c2 x (rs & -> & F). exists (r :: rs). split; [reflexivity|]. constructor; [exact K|exact F].
  Qed.
  (** ** Interleavings *)
  Definition pool_ok {A} (h : heap N) (ps : list (prog N A)) (Qs : list (result A -> Prop)) : Prop := Forall2 (fun p Q => exists c, okh c h /\ safe c p (fun _ => Q)) ps Qs.
  Lemma forall2_upd {A B} (P P' : A -> B -> Prop) : forall l l' j a, Forall2 P l l' -> (forall x y, P x y -> P' x y) -> (forall b, nth_error l' j = Some b -> P' a b) -> Forall2 P' (upd l j a) l'.
  Proof.
    intros l l' j a F. revert j. induction F as [|x y l l' H F IH]; intros [|j] K1 K2; cbn [upd]; constructor; auto.
    clear - F K1. induction F; constructor; auto.
  Qed.
  Lemma forall2_nth {A B} (P : A -> B -> Prop) : forall l l' j a, Forall2 P l l' -> nth_error l j = Some a -> exists b, nth_error l' j = Some b /\ P a b.
  Proof. intros l l' j a F. revert j. induction F as [|x y l l' H F IH]; intros [|j] E; try discriminate; cbn in *; [injection E as <-; exists y; auto|auto]. Qed.
  Lemma pool_step {A} h ps h' ps' (Qs : list (result A -> Prop)) : pool_ok h ps Qs -> istep (h, ps) (h', ps') -> pool_ok h' ps' Qs.
  Proof.
    intros P T. remember (h, ps) as c1 eqn:E1. remember (h', ps') as c2 eqn:E2. destruct T as [h1 ps1 j i B a k E|h1 ps1 j i B a v k E]; injection E1 as -> ->; injection E2 as <- <-;
      destruct (forall2_nth _ _ _ _ _ P E) as (Q & EQ & c & O & S); cbn [safe] in S; pose proof (S h O) as S'.
    - destruct S' as (c' & O' & S'). apply (forall2_upd _ _ _ _ _ _ P); [auto|]. intros Q' EQ'. rewrite EQ in EQ'. injection EQ' as <-. exists c'. auto.
    - destruct S' as (P1 & c' & O' & S'). apply (forall2_upd _ _ _ _ _ _ P).
      + intros p Q' (c2 & O2 & S2). exists c2. split; [apply P1; exact O2|exact S2].
      + intros Q' EQ'. rewrite EQ in EQ'. injection EQ' as <-. exists c'. auto.
  Qed.
  Lemma pool_steps {A} c1 c2 (Qs : list (result A -> Prop)) : isteps c1 c2 -> pool_ok (fst c1) (snd c1) Qs -> pool_ok (fst c2) (snd c2) Qs.
  Proof. induction 1 as [c|c c' c'' _ IH T]; intros P; [exact P|]. specialize (IH P). destruct c' as [h' p'], c'' as [h'' p'']. exact (pool_step _ _ _ _ _ IH T). Qed.
  Lemma okh_start : okh (fun _ => false) h0.
  Proof. intros i Hi. destruct (nth_error h0 i) as [[t|]|]; auto. Qed.
  (** a program interrupted *)
  Lemma safe_stop {A} (p : prog N A) Q : forall n c h, okh c h -> safe c p Q -> exists c', okh c' (stop n h p).
  Proof.
    induction p as [x|i B a k IH|i B a v p IH]; intros [|n] c h O S; cbn [stop]; try (exists c; exact O); cbn [safe] in S.
    - destruct (S h O) as (c' & O' & S'). eapply IH; eauto.
    - destruct (S h O) as (_ & c' & O' & S'). eapply IH; eauto.
  Qed.
  Lemma safe_run {A} (p : prog N A) Q : forall c h, okh c h -> safe c p Q -> exists c', okh c' (fst (run h p)) /\ Q c' (snd (run h p)).
  Proof.
    induction p as [x|i B a k IH|i B a v p IH]; intros c h O S; cbn [run safe] in *.
    - exists c. auto.
    - destruct (S h O) as (c' & O' & S'). eapply IH; eauto.
    - destruct (S h O) as (_ & c' & O' & S'). eapply IH; eauto.
  Qed.
End Safe.

(** C140.  Threads make calls one after the other, in any interleaving of their attribute accesses.  Every call that is not a query concerns turbines
    outside the set [Sel].  Then every query about turbines of [Sel] returns what it would return if it were the only call made. *)
Theorem C140_isolation : forall (N : Num) (Sel : nat -> bool) (h0 : heap N) (threads : list (list (call N))) h ps,
  (forall i t, Sel i = true -> nth_error h0 i = Some (OWT t) -> loaded_ok t) ->
  (forall cs q, In cs threads -> In q cs -> is_query_call q = false -> forall i, In i (about q) -> Sel i = false) ->
  isteps (h0, map thread threads) (h, ps) ->
  forall j cs x, nth_error threads j = Some cs -> nth_error ps j = Some (Ret x) ->
    exists rs, x = Ok rs /\ Forall2 (fun q r => is_query_call q = true -> (forall i, In i (about q) -> Sel i = true) -> alone h0 q = Some r) cs rs.
Proof.
  intros N Sel h0 threads h ps WF HU T j cs x Hj Hx.
  assert (P0 : pool_ok Sel h0 h0 (map thread threads) (map (fun cs x => exists rs, x = Ok rs /\ Forall2 (kept Sel h0) cs rs) threads)).
  { clear - WF HU. induction threads as [|cs threads IH]; cbn [map]; constructor.
    - exists (fun _ => false). split; [apply okh_start|]. apply (safe_thread Sel h0 WF cs). intros q Hq. apply (HU cs); [left; reflexivity|exact Hq].
    - apply IH. intros cs' q Hc. apply HU. right. exact Hc. }
  pose proof (pool_steps Sel h0 _ _ _ T P0) as P1. cbn [fst snd] in P1. destruct (forall2_nth _ _ _ _ _ P1 Hx) as (Q & EQ & c & O & S). cbn [safe] in S.
  pose proof (map_nth_error (fun cs (x : result (list (result (outcome N)))) => exists rs, x = Ok rs /\ Forall2 (kept Sel h0) cs rs) j threads Hj) as E. rewrite EQ in E. injection E as ->. exact S.
Qed.
(** queries only: every query returns what it would return alone, whatever the other threads ask, and in whatever order *)
Theorem C140_queries : forall (N : Num) (h0 : heap N) (threads : list (list (call N))) h ps,
  (forall i t, nth_error h0 i = Some (OWT t) -> loaded_ok t) ->
  (forall cs q, In cs threads -> In q cs -> is_query_call q = true) ->
  isteps (h0, map thread threads) (h, ps) ->
  forall j cs x, nth_error threads j = Some cs -> nth_error ps j = Some (Ret x) ->
    exists rs, x = Ok rs /\ Forall2 (fun q r => alone h0 q = Some r) cs rs.
Proof.
  intros N h0 threads h ps WF HQ T j cs x Hj Hx.
  destruct (C140_isolation N (fun _ => true) h0 threads h ps (fun i t _ => WF i t)) with (j := j) (cs := cs) (x := x) as (rs & E & F); auto.
  - intros cs' q Hc Hq E. rewrite (HQ cs' q Hc Hq) in E. discriminate.
  - exists rs. split; [exact E|]. assert (HC : forall q, In q cs -> is_query_call q = true) by (intros q; apply HQ; eapply nth_error_In; eauto). clear - F HC.
    induction F as [|q r cs rs K F IH]; constructor; [apply K; [apply HC; left; reflexivity|auto]|apply IH; intros q' Hq; apply HC; right; exact Hq].
Qed.
