(** * WindTurbine: several cylinders; when compute_u raises *)
From Coq Require Import ZArith List Bool Arith Lia String Reals Lra Psatz Permutation.
From Verif Require Import Num NumR NumX Spec M_Elliptic M_Line M_Doublet M_Cylinder M_Skewed
  M_Solver M_Turbine L_List L_Turbine L_State L_Farm L_Geom L_Angles L_TurbineX L_TurbineY.
Import ListNotations.
Local Notation len := List.length.
Local Open Scope R_scope.

Lemma flat_map_perm_app {A B} (f g : A -> list B) l :
  Permutation (flat_map (fun x => f x ++ g x) l) (flat_map f l ++ flat_map g l).
Proof.
  induction l as [|a l IH]; cbn [flat_map]; auto. rewrite IH, <- !app_assoc.
  apply Permutation_app_head. rewrite !app_assoc. apply Permutation_app_tail. apply Permutation_app_comm.
Qed.
Lemma flat_map_nil {A B} (l : list A) : flat_map (fun _ => @nil B) l = [].
Proof. induction l; auto. Qed.
Lemma nest_nil {A A' B} (l : list A) (l' : list A') : flat_map (fun _ => flat_map (fun _ => @nil B) l') l = [].
Proof. rewrite flat_map_nil. apply flat_map_nil. Qed.
Lemma flat_map_swap {A B C} (f : A -> B -> list C) la lb :
  Permutation (flat_map (fun a => flat_map (f a) lb) la) (flat_map (fun b => flat_map (fun a => f a b) la) lb).
Proof.
  induction la as [|a la IH]; cbn [flat_map].
  - rewrite flat_map_nil. reflexivity.
  - rewrite IH. symmetry. apply (flat_map_perm_app (f a) (fun b => flat_map (fun a => f a b) la) lb).
Qed.
Lemma fold_cond_fsum {N : Num} {A} (c : A -> bool) (f : A -> list (N*N*N)) l u :
  fold_left (fun u a => if c a then fadd u (f a) else u) l u =
  fsum u (flat_map (fun a => if c a then [f a] else []) l).
Proof.
  revert u; induction l as [|a l IH]; intros u; cbn [fold_left flat_map]; auto. rewrite IH.
  unfold fsum. rewrite fold_left_app. destruct (c a); reflexivity.
Qed.
Lemma fold_fsum_nest {N : Num} {A} (f : A -> list (list (N*N*N))) l u :
  fold_left (fun u a => fsum u (f a)) l u = fsum u (flat_map f l).
Proof.
  revert u; induction l as [|a l IH]; intros u; cbn [fold_left flat_map]; auto. rewrite IH.
  unfold fsum. rewrite fold_left_app. reflexivity.
Qed.

Lemma fold_left_ext {A B} (f g : A -> B -> A) l a :
  (forall a b, f a b = g a b) -> fold_left f l a = fold_left g l a.
Proof. intros H; revert a; induction l as [|b l IH]; intros a; cbn; auto. rewrite H, IH. reflexivity. Qed.

(** One cylinder of a multi-cylinder turbine, as a turbine of its own. *)
Definition as_single (t : turbine XN) (r g : XN) (gl : option XN) : turbine XN :=
  mkT (N := XN) r (t_rhub t) (t_shaft t) (t_shaft0 t) (t_vert t) (t_horz t) (t_TF2g t) (t_Tc2wt t)
      (t_Twt2g t) (t_yaw t) (t_U0 t) (Some [r]) (Some [g]) (Some (option_map (fun x => [x]) gl)) (t_Gr t)
      (t_Lambda t) (t_ground t) (t_chi t) (t_model t) (t_Ct t) (t_name t).

(** cylinders: (intensity, radius, longitudinal intensity) *)
Definition cyl3 : Type := (R * R * R)%type.
Definition cg (c : cyl3) : XN := Fin (fst (fst c)).
Definition cr (c : cyl3) : XN := Fin (snd (fst c)).
Definition cl (c : cyl3) : XN := Fin (snd c).

Section Multi.
  Variables (t : turbine XN) (o : opts XN) (cs : list cyl3) (haslongi : bool) (pts : list xpt).
  Hypothesis Hgt : t_gt t = Some (map cg cs).
  Hypothesis Hr : t_r t = Some (map cr cs).
  Hypothesis Hgl : t_gl t = Some (if haslongi then Some (map cl cs) else None).
  Hypothesis Hn : len cs <> 1%nat.
  Hypothesis HM : model_of t o = "VC"%string.
  Hypothesis Hroot : o_root o = false.
  Hypothesis Hnw : o_no_wake o = false.
  Hypothesis Hind : o_only_ind o = true.
  Hypothesis Hgrd : ground_on t o = false \/ o_longi o = false.

  Definition single_of (c : cyl3) : turbine XN :=
    as_single t (cr c) (cg c) (if haslongi then Some (cl c) else None).

  Let chi := chi_now t.
  Let m := ntan XN chi.
  Let Yl := ylist (ground_on t o) (transform_T (T_c2g t) (t_rhub t)) (map (transform_T (T_c2g t)) pts).
  Let tangY (c : cyl3) (Y : list xpt) : list (list xpt) :=
    if o_tang o && negb (neqb XN (cg c) (nZ XN 0)) then
      [if skewed chi then map (svc_tang_u (cg c) (cr c) m 180 false) Y
       else vc_tang_u (cg c) (cr c) (nZ XN 0) Y] else [].
  Let longY (c : cyl3) (Y : list xpt) : list (list xpt) :=
    if o_longi o && haslongi && negb (neqb XN (cl c) (nZ XN 0)) then
      [if skewed chi then map (svc_longi_u (cl c) (cr c) m 180 false) Y
       else vc_longi_u (cl c) (cr c) false Y] else [].

  Lemma single_of_terms c :
    terms (single_of c) o [cg c] pts = Ok (flat_map (fun Y => tangY c Y ++ longY c Y) Yl).
  Proof.
    unfold terms. unfold root_terms. rewrite Hroot. cbn [bind app].
    assert (E : single_terms (single_of c) o
      match o_Model o with Some m => m | None => t_model (single_of c) end (chi_now (single_of c)) (cg c) Yl
      = Ok (flat_map (fun Y => tangY c Y ++ longY c Y) Yl)).
    { unfold single_terms.
      assert (E1 : mapM (single1_terms (single_of c) o
          match o_Model o with Some m => m | None => t_model (single_of c) end (chi_now (single_of c)) (cg c)) Yl
          = Ok (map (fun Y => tangY c Y ++ longY c Y) Yl)).
      { apply mapM_ok_iff.
        assert (F : forall Y, single1_terms (single_of c) o
          match o_Model o with Some m => m | None => t_model (single_of c) end (chi_now (single_of c)) (cg c) Y
          = Ok (tangY c Y ++ longY c Y)).
        { intros Y. unfold single1_terms.
          change (match o_Model o with Some m => m | None => t_model (single_of c) end) with (model_of t o).
          rewrite HM. change (chi_now (single_of c)) with chi.
          unfold cu_tang1, cu_longi1, tangY, longY, gl_active1.
          cbn [single_of as_single t_gl t_R String.eqb Ascii.eqb Bool.eqb].
          destruct (o_tang o && negb (neqb XN (cg c) (nZ XN 0))).
          - destruct (skewed chi); cbn [bind];
            destruct (o_longi o); cbn [negb andb bind app]; auto;
            destruct haslongi; cbn [option_map bind negb andb app]; auto;
            destruct (neqb XN (cl c) (nZ XN 0)); reflexivity.
          - cbn [bind].
            destruct (o_longi o); cbn [negb andb bind app]; auto;
            destruct haslongi; cbn [option_map bind negb andb app]; auto;
            destruct (neqb XN (cl c) (nZ XN 0)); cbn [negb bind]; auto; destruct (skewed chi); reflexivity. }
        clear - F. induction Yl; cbn [map]; constructor; auto. }
      rewrite E1. cbn [bind]. rewrite flat_map_concat_map. reflexivity. }
    unfold Yl, ground_on in E. cbn zeta.
    change (t_ground (single_of c)) with (t_ground t).
    change (t_rhub (single_of c)) with (t_rhub t).
    change (T_c2g (single_of c)) with (T_c2g t) in *. rewrite E. reflexivity.
  Qed.

  Lemma gcond (x : R) : nlt XN (nZ XN 0) (nabs XN (Fin x)) = negb (neqb XN (Fin x) (nZ XN 0)).
  Proof.
    cbn [nlt nZ nabs neqb XN xlt xabs xeqb]. destruct (Reqb_spec x 0); cbn [negb].
    - subst. rewrite Rabs_R0. apply Rltb_false; lra.
    - apply Rltb_true. apply Rabs_pos_lt; auto.
  Qed.

  Lemma map2_same {A B C D} (f : A -> B -> C) (g : D -> A) (h : D -> B) l :
    map2 f (map g l) (map h l) = map (fun d => f (g d) (h d)) l.
  Proof. rewrite map2_map_l, map2_map_r, map2_diag. reflexivity. Qed.

  Lemma fold_left_map {A B C} (f : A -> B -> A) (g : C -> B) l a :
    fold_left f (map g l) a = fold_left (fun a c => f a (g c)) l a.
  Proof. revert a; induction l; intros; cbn; auto. Qed.

  Lemma multi_tang :
    (if skewed chi
     then svcs_tang_u 180 (ground_on t o) [(transform_T (T_c2g t) (t_rhub t), map2 (fun g r => (g, r, m)) (map cg cs) (map cr cs))]
            (map (transform_T (T_c2g t)) pts)
     else vcs_tang_u (nZ XN 0) (ground_on t o) [(transform_T (T_c2g t) (t_rhub t), map2 pair (map cg cs) (map cr cs))]
            (map (transform_T (T_c2g t)) pts))
    = fsum (fzero pts) (flat_map (fun Y => flat_map (fun c =>
        if negb (neqb XN (cg c) (nZ XN 0)) then
          [if skewed chi then map (svc_tang_u (cg c) (cr c) m 180 false) Y
           else vc_tang_u (cg c) (cr c) (nZ XN 0) Y] else []) cs) Yl).
  Proof.
    rewrite !map2_same. destruct (skewed chi).
    - unfold svcs_tang_u. cbn [fold_left fst snd]. fold Yl. rewrite fzero_map.
      rewrite <- fold_fsum_nest. apply fold_left_ext. intros u Y. rewrite fold_left_map.
      rewrite <- fold_cond_fsum. apply fold_left_ext. intros u' c.
      unfold cg. rewrite gcond. reflexivity.
    - unfold vcs_tang_u, vcs_tang_u_gen. cbn [fold_left fst snd]. fold Yl. rewrite fzero_map.
      rewrite <- fold_fsum_nest. apply fold_left_ext. intros u Y. rewrite fold_left_map.
      rewrite <- fold_cond_fsum. apply fold_left_ext. intros u' c. cbn [fst snd].
      unfold cg. rewrite gcond. reflexivity.
  Qed.
  Lemma multi_longi : ground_on t o = false ->
    (if skewed chi
     then svcs_longi_u 180 (ground_on t o) [(transform_T (T_c2g t) (t_rhub t), map2 (fun g r => (g, r, m)) (map cl cs) (map cr cs))]
            (map (transform_T (T_c2g t)) pts)
     else vcs_longi_u (ground_on t o) [(transform_T (T_c2g t) (t_rhub t), map2 pair (map cl cs) (map cr cs))]
            (map (transform_T (T_c2g t)) pts))
    = fsum (fzero pts) (flat_map (fun Y => flat_map (fun c =>
        if negb (neqb XN (cl c) (nZ XN 0)) then
          [if skewed chi then map (svc_longi_u (cl c) (cr c) m 180 false) Y
           else vc_longi_u (cl c) (cr c) false Y] else []) cs) Yl).
  Proof.
    intros HGf. rewrite !map2_same. unfold Yl. rewrite HGf. unfold ylist. cbn [flat_map]. rewrite app_nil_r.
    destruct (skewed chi).
    - unfold svcs_longi_u, ylist. cbn [fold_left fst snd]. rewrite fzero_map. rewrite fold_left_map.
      rewrite <- fold_cond_fsum. apply fold_left_ext. intros u' c.
      unfold cl. rewrite gcond. reflexivity.
    - unfold vcs_longi_u, vcs_longi_u_gen. cbn [fold_left fst snd]. rewrite fzero_map. rewrite fold_left_map.
      rewrite <- fold_cond_fsum. apply fold_left_ext. intros u' c. cbn [fst snd].
      unfold cl. rewrite gcond. reflexivity.
  Qed.

  Lemma multi_sum :
    exists vs, terms t o (map cg cs) pts = Ok vs /\
      fsum (fzero pts) vs =
      fsum (fzero pts) (flat_map (fun c => flat_map (fun Y => tangY c Y ++ longY c Y) Yl) cs).
  Proof.
    unfold terms. unfold root_terms. rewrite Hroot. cbn [bind app].
    assert (E : match map cg cs with
                | [g] => single_terms t o (model_of t o) chi g Yl
                | _ => multi_terms t o (model_of t o) chi (map cg cs) (ground_on t o)
                         (transform_T (T_c2g t) (t_rhub t)) (map (transform_T (T_c2g t)) pts)
                end = multi_terms t o (model_of t o) chi (map cg cs) (ground_on t o)
                         (transform_T (T_c2g t) (t_rhub t)) (map (transform_T (T_c2g t)) pts)).
    { destruct cs as [|c1 [|c2 cs']]; auto. cbn in Hn; lia. }
    change (match o_Model o with Some m => m | None => t_model t end) with (model_of t o).
    change (match o_ground o with Some g => g | None => t_ground t end) with (ground_on t o).
    fold chi. fold Yl. rewrite E. unfold multi_terms. rewrite HM, Hr, Hgl.
    cbn [String.eqb Ascii.eqb Bool.eqb]. rewrite !map_length, Nat.eqb_refl. cbn [negb].
    assert (E2 : (match (if haslongi then Some (map cl cs) else None) with
                  | Some gl => negb (Nat.eqb (len gl) (len cs)) | None => false end) = false).
    { destruct haslongi; auto. rewrite map_length, Nat.eqb_refl. reflexivity. }
    rewrite E2. cbn [bind]. eexists; split; [reflexivity|].
    fold m.
    (* normalise the right-hand side *)
    assert (P : Permutation (flat_map (fun c => flat_map (fun Y => tangY c Y ++ longY c Y) Yl) cs)
       (flat_map (fun Y => flat_map (fun c => tangY c Y) cs) Yl ++
        flat_map (fun Y => flat_map (fun c => longY c Y) cs) Yl)).
    { rewrite flat_map_swap. rewrite <- flat_map_perm_app.
      clear. induction Yl as [|Y l IH]; cbn [flat_map]; auto. rewrite IH.
      apply Permutation_app_tail. apply flat_map_perm_app. }
    rewrite (fsumX_perm _ _ _ P).
    assert (LT : Forall (fun v => len v = len pts) (flat_map (fun Y => flat_map (fun c => tangY c Y) cs) Yl)).
    { apply Forall_forall. intros v Hv. apply in_flat_map in Hv. destruct Hv as (Y & HY & Hv).
      apply in_flat_map in Hv. destruct Hv as (c & _ & Hv). unfold tangY in Hv.
      pose proof (shift_ylist_length _ _ _ _ HY) as LY. rewrite map_length in LY.
      destruct (o_tang o && negb (neqb XN (cg c) (nZ XN 0))); [|destruct Hv].
      destruct Hv as [<-|[]]. destruct (skewed chi); [rewrite map_length|rewrite vc_tang_u_length]; auto. }
    rewrite (fsumX_app _ _ _ LT).
    assert (ET : fsum (fzero pts) (flat_map (fun Y => flat_map (fun c => tangY c Y) cs) Yl) =
      if o_tang o then (if skewed chi
        then svcs_tang_u 180 (ground_on t o) [(transform_T (T_c2g t) (t_rhub t), map2 (fun g r => (g, r, m)) (map cg cs) (map cr cs))]
            (map (transform_T (T_c2g t)) pts)
        else vcs_tang_u (nZ XN 0) (ground_on t o) [(transform_T (T_c2g t) (t_rhub t), map2 pair (map cg cs) (map cr cs))]
            (map (transform_T (T_c2g t)) pts)) else fzero pts).
    { rewrite multi_tang. unfold tangY. destruct (o_tang o); cbn [andb]; auto.
      rewrite nest_nil; reflexivity. }
    assert (EL : fsum (fzero pts) (flat_map (fun Y => flat_map (fun c => longY c Y) cs) Yl) =
      if o_longi o && haslongi then (if skewed chi
        then svcs_longi_u 180 (ground_on t o) [(transform_T (T_c2g t) (t_rhub t), map2 (fun g r => (g, r, m)) (map cl cs) (map cr cs))]
            (map (transform_T (T_c2g t)) pts)
        else vcs_longi_u (ground_on t o) [(transform_T (T_c2g t) (t_rhub t), map2 pair (map cl cs) (map cr cs))]
            (map (transform_T (T_c2g t)) pts)) else fzero pts).
    { unfold longY. destruct (o_longi o) eqn:EO; cbn [andb].
      - destruct Hgrd as [HGf|]; [|discriminate]. rewrite (multi_longi HGf).
        destruct haslongi; cbn [andb]; auto.
        rewrite nest_nil; reflexivity.
      - rewrite nest_nil; reflexivity. }
    rewrite ET, EL.
    assert (L1 : forall x, len (if o_tang o then (if skewed chi
        then svcs_tang_u 180 (ground_on t o) [(transform_T (T_c2g t) (t_rhub t), map2 (fun g r => (g, r, m)) (map cg cs) (map cr cs))]
            (map (transform_T (T_c2g t)) pts)
        else vcs_tang_u (nZ XN 0) (ground_on t o) [(transform_T (T_c2g t) (t_rhub t), map2 pair (map cg cs) (map cr cs))]
            (map (transform_T (T_c2g t)) pts)) else fzero pts) = x -> x = len pts).
    { intros x <-. rewrite <- ET. rewrite fsum_length; rewrite fzero_length; auto. }
    assert (L2 : len (fsum (fzero pts) (flat_map (fun Y => flat_map (fun c => longY c Y) cs) Yl)) = len pts).
    { rewrite fsum_length; rewrite fzero_length; auto.
      apply Forall_forall. intros v Hv. apply in_flat_map in Hv. destruct Hv as (Y & HY & Hv).
      apply in_flat_map in Hv. destruct Hv as (c & _ & Hv). unfold longY in Hv.
      pose proof (shift_ylist_length _ _ _ _ HY) as LY. rewrite map_length in LY.
      destruct (o_longi o && haslongi && negb (neqb XN (cl c) (nZ XN 0))); [|destruct Hv].
      destruct Hv as [<-|[]]. destruct (skewed chi); [rewrite map_length|rewrite vc_longi_u_length]; auto. }
    rewrite EL in L2. specialize (L1 _ eq_refl).
    assert (Z : forall a b : list xpt, len a = len pts -> len b = len pts ->
       fsum (fzero pts) [a; b] = fadd a b).
    { intros a b Ha Hb. unfold fsum. cbn [fold_left]. rewrite faddX_0_l by auto. reflexivity. }
    assert (Z1 : forall a : list xpt, len a = len pts -> fsum (fzero pts) [a] = a).
    { intros a Ha. unfold fsum. cbn [fold_left]. apply faddX_0_l; auto. }
    assert (Z0 : forall a : list xpt, len a = len pts -> fadd a (fzero pts) = a).
    { intros a Ha. rewrite faddX_comm. apply faddX_0_l; auto. }
    destruct (o_tang o), (o_longi o); cbn [app andb] in *;
      destruct haslongi; cbn [app andb] in *;
      rewrite ?Z, ?Z1, ?Z0 by (auto using fzero_length); auto using faddX_0_l.
    - rewrite faddX_0_l; auto.
  Qed.

  Lemma multi_superpose sh v hub U Rt yaw : WF t sh v hub U Rt yaw ->
    exists us, Forall2 (fun c u => snd (compute_u (single_of c) o pts) = Ok u) cs us /\
      snd (compute_u t o pts) = Ok (fsum (fzero pts) us).
  Proof.
    intros HW. destruct multi_sum as (vs & E & ES).
    exists (map (fun c => finish t o pts (fsum (fzero pts) (flat_map (fun Y => tangY c Y ++ longY c Y) Yl))) cs).
    split.
    - apply mapM_ok_iff.
      assert (F : forall c, snd (compute_u (single_of c) o pts) =
         Ok (finish t o pts (fsum (fzero pts) (flat_map (fun Y => tangY c Y ++ longY c Y) Yl)))).
      { intros c. rewrite compute_u_terms. cbn [single_of as_single t_gt]. fold (single_of c).
        rewrite single_of_terms. cbn [bind]. f_equal. unfold finish. rewrite Hnw. reflexivity. }
      clear - F. induction cs as [|c l IH]; cbn [mapM map]; auto. rewrite F, IH. reflexivity.
    - rewrite compute_u_terms, Hgt, E. cbn [bind]. f_equal. rewrite ES. clear E ES vs Hn Hgt Hr Hgl.
      assert (LL : forall c, Forall (fun v => len v = len pts) (flat_map (fun Y => tangY c Y ++ longY c Y) Yl)).
      { intros c. apply Forall_forall. intros x Hx. apply in_flat_map in Hx. destruct Hx as (Y & HY & Hx).
        pose proof (shift_ylist_length _ _ _ _ HY) as LY. rewrite map_length in LY.
        apply in_app_iff in Hx. destruct Hx as [Hx|Hx].
        - unfold tangY in Hx.
          destruct (o_tang o && negb (neqb XN (cg c) (nZ XN 0))); [|destruct Hx].
          destruct Hx as [<-|[]]. destruct (skewed chi); [rewrite map_length|rewrite vc_tang_u_length]; auto.
        - unfold longY in Hx.
          destruct (o_longi o && haslongi && negb (neqb XN (cl c) (nZ XN 0))); [|destruct Hx].
          destruct Hx as [<-|[]]. destruct (skewed chi); [rewrite map_length|rewrite vc_longi_u_length]; auto. }
      assert (LF : forall u, len u = len pts -> len (finish t o pts u) = len pts).
      { intros u Hu. unfold finish. rewrite Hnw, Hind, map_length; auto. }
      assert (F0 : finish t o pts (fzero pts) = fzero pts).
      { unfold finish. rewrite Hnw, Hind. unfold fzero. rewrite map_map.
        apply map_ext. intros p. rewrite (WF_c2g _ _ _ _ _ _ _ HW). apply transform_zero. }
      clear Hgrd Hroot HM.
      induction cs as [|c l IH]; cbn [flat_map map]; [exact F0|].
      rewrite fsumX_app by auto. rewrite (finish_fadd _ _ _ _ _ _ _ _ _ _ _ HW) by auto.
      rewrite IH. change (?a :: ?b) with ([a] ++ b). rewrite fsumX_app.
      + f_equal. match goal with |- _ = fsum _ [?a] => change (fsum (fzero pts) [a]) with (fadd (fzero pts) a) end.
        rewrite faddX_0_l; auto. apply LF.
        rewrite fsum_length; rewrite fzero_length; auto.
      + constructor; auto. apply LF.
        rewrite fsum_length; rewrite fzero_length; auto.
  Qed.
End Multi.

(** ** When compute_u raises *)
Definition is_err {A} (r : result A) : bool := match r with Ok _ => false | Err _ => true end.

(** The attributes set by update_loading have matching shapes. *)
Definition loading_consistent (t : turbine XN) (gs : list XN) : Prop :=
  exists gl, t_gl t = Some gl /\
    match gl with Some l => len l = len gs | None => True end /\
    (len gs = 1%nat \/ exists r, t_r t = Some r /\ len r = len gs).
Definition known_model (m : string) : bool :=
  String.eqb m "VC" || String.eqb m "VCFF" || String.eqb m "VD" || String.eqb m "SS".
(** What compute_u cannot do, read from the options and the loading. *)
Definition unsupported (t : turbine XN) (o : opts XN) (gs : list XN) : bool :=
  let Mo := model_of t o in
  match gs with
  | [g] =>
      (o_tang o && negb (neqb XN g (nZ XN 0)) &&
         (if skewed (chi_now t) then negb (String.eqb Mo "VC") else negb (known_model Mo)))
      || (o_longi o && match t_gl t with
                       | Some (Some [gl]) => negb (neqb XN gl (nZ XN 0))
                       | _ => false
                       end && negb (String.eqb Mo "VC"))
  | _ => negb (String.eqb Mo "VC")
  end.

Lemma vc_rX_nneg (p : xpt) : nlt XN (vc_r p) (nZ XN 0) = false.
Proof.
  destruct p as [[x y] z]. unfold vc_r. change (nsqrt XN) with xsqrt. unfold sq.
  destruct (nadd XN (nmul XN x x) (nmul XN y y)) as [r| | |]; cbn; auto.
  destruct (Rltb_spec r 0); cbn; auto. apply Rltb_false. apply sqrt_pos.
Qed.
Lemma gather_In {A} (mask : list bool) (l : list A) a : In a (gather mask l) -> In a l.
Proof.
  revert l; induction mask as [|[] mask IH]; intros [|x l]; cbn; try tauto.
  - intros [|]; auto.
  - auto.
Qed.
Lemma VCFF_ok g R far pts : is_err (vc_tang_u_doublet (N := XN) g R far pts) = false.
Proof.
  unfold vc_tang_u_doublet, vc_tang_u_doublet_gen, vc_tang_doublet_polar_gen, doublet_line_polar_u.
  match goal with |- context [any_neg ?l] => assert (E : any_neg l = false) end.
  { unfold any_neg. apply not_true_is_false. intros H. apply existsb_exists in H. destruct H as (q & Hq & Hn).
    apply gather_In in Hq. apply in_map_iff in Hq. destruct Hq as (p & <- & _).
    cbn [fst] in Hn. rewrite vc_rX_nneg in Hn. discriminate. }
  rewrite E. reflexivity.
Qed.
Lemma is_err_bind {A B} (x : result A) (f : A -> result B) :
  is_err (bind x f) = match x with Ok a => is_err (f a) | Err _ => true end.
Proof. destruct x; reflexivity. Qed.
Lemma mapM_err {A B} (f : A -> result B) l : is_err (mapM f l) = existsb (fun a => is_err (f a)) l.
Proof.
  induction l as [|a l IH]; cbn [mapM existsb]; auto. destruct (f a); cbn [bind is_err orb]; auto.
  rewrite <- IH. destruct (mapM f l); reflexivity.
Qed.
Lemma svc_root_ok G m b (pts : list xpt) : pts <> [] -> is_err (svc_root_u (N := XN) G m b pts) = false.
Proof.
  intros H. unfold svc_root_u, svc_root_u_polar. destruct (neqb XN G _); auto. destruct (neqb XN m _); auto.
  destruct pts as [|p pts]; [congruence|]. cbn [map]. destruct (nlt XN _ _); reflexivity.
Qed.
Lemma root_ok t o chi Yl : Forall (fun Y => Y <> []) Yl -> is_err (root_terms (N := XN) t o chi Yl) = false.
Proof.
  intros H. unfold root_terms. destruct (o_root o); auto. destruct (t_Gr t); auto.
  destruct (neqb XN _ _); auto. rewrite mapM_err. apply not_true_is_false. intros E.
  apply existsb_exists in E. destruct E as (Y & HY & E). rewrite Forall_forall in H. specialize (H Y HY).
  destruct (skewed chi); [rewrite svc_root_ok in E; auto; discriminate|discriminate].
Qed.

Lemma raises_iff (t : turbine XN) o pts : pts <> [] ->
  (forall gs, t_gt t = Some gs -> loading_consistent t gs) ->
  is_err (snd (compute_u t o pts)) =
  match t_gt t with None => true | Some gs => unsupported t o gs end.
Proof.
  intros Hp Hc. rewrite compute_u_terms. destruct (t_gt t) as [gs|]; [|reflexivity].
  destruct (Hc gs eq_refl) as (gl & Hgl & Hlen & Hr). clear Hc.
  rewrite is_err_bind. unfold terms.
  change (match o_Model o with Some m => m | None => t_model t end) with (model_of t o).
  change (match o_ground o with Some g => g | None => t_ground t end) with (ground_on t o).
  set (Yl := ylist _ _ _).
  assert (HY : Yl <> [] /\ Forall (fun Y => Y <> []) Yl).
  { unfold Yl, ylist. destruct pts as [|p pts]; [congruence|].
    destruct (ground_on t o); split; try discriminate; repeat constructor; discriminate. }
  destruct HY as [HY1 HY2].
  pose proof (root_ok t o (chi_now t) Yl HY2) as HR.
  destruct (root_terms t o (chi_now t) Yl) as [a|]; [|discriminate]. cbn [bind]. clear HR.
  transitivity (is_err (match gs with
              | [g] => single_terms t o (model_of t o) (chi_now t) g Yl
              | _ => multi_terms t o (model_of t o) (chi_now t) gs (ground_on t o)
                       (transform_T (T_c2g t) (t_rhub t)) (map (transform_T (T_c2g t)) pts)
              end)).
  { destruct (match gs with [g] => _ | _ => _ end); reflexivity. }
  assert (MU : (exists r, t_r t = Some r /\ len r = len gs) ->
    is_err (multi_terms t o (model_of t o) (chi_now t) gs (ground_on t o)
                       (transform_T (T_c2g t) (t_rhub t)) (map (transform_T (T_c2g t)) pts))
    = negb (String.eqb (model_of t o) "VC")).
  { intros (r & Er & Lr). unfold multi_terms. destruct (String.eqb (model_of t o) "VC"); auto.
    rewrite Er, Hgl, Lr, Nat.eqb_refl. cbn [negb].
    replace (match gl with Some gl => negb (Nat.eqb (len gl) (len gs)) | None => false end) with false; auto.
    destruct gl; auto. rewrite Hlen, Nat.eqb_refl. reflexivity. }
  destruct gs as [|g [|g' gs']].
  - destruct Hr as [Hr|Hr]; [discriminate|]. apply MU; auto.
  - clear MU Hr. unfold unsupported, single_terms.
    transitivity (is_err (mapM (single1_terms t o (model_of t o) (chi_now t) g) Yl)).
    { destruct (mapM _ Yl); reflexivity. }
    rewrite mapM_err.
    set (b := o_tang o && _ && _ || _).
    assert (E : forall Y, is_err (single1_terms t o (model_of t o) (chi_now t) g Y) = b).
    { intros Y. unfold single1_terms, b, cu_tang1, cu_longi1, gl_active1, known_model.
      rewrite Hgl. set (Mo := model_of t o).
      pose proof (VCFF_ok g (t_R t) (o_far o) Y) as HV.
      destruct (vc_tang_u_doublet g (t_R t) (o_far o) Y) as [vv|]; [|discriminate]. clear HV.
      destruct (o_tang o && negb (neqb XN g (nZ XN 0))); cbn [andb orb];
      destruct (skewed (chi_now t)); destruct (String.eqb Mo "VC");
      try destruct (String.eqb Mo "VCFF"); try destruct (String.eqb Mo "VD"); try destruct (String.eqb Mo "SS");
      cbn [bind orb negb is_err andb]; auto;
      destruct (o_longi o); cbn [negb andb bind is_err]; auto;
      (destruct gl as [[|x [|y gl]]|]; cbn [bind is_err]; [discriminate Hlen| |discriminate Hlen|reflexivity]);
      destruct (neqb XN x (nZ XN 0)); reflexivity. }
    destruct Yl as [|Y0 Yl']; [congruence|]. clear - E. revert Y0.
    induction Yl' as [|Y1 l IH]; intros Y0; cbn [existsb]; rewrite E; [apply orb_false_r|].
    specialize (IH Y1). cbn [existsb] in IH. rewrite IH. destruct b; reflexivity.
  - destruct Hr as [Hr|Hr]; [discriminate|]. apply MU; auto.
Qed.
