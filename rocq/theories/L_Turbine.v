(** * Structural lemmas about compute_u, valid for every [Num]. *)
From Coq Require Import ZArith List Bool Arith Lia String.
From Verif Require Import Num M_Elliptic M_Line M_Doublet M_Cylinder M_Misc M_Skewed M_Solver
  M_Turbine L_List.
Import ListNotations.
Local Open Scope num_scope.
Local Notation len := List.length.

Lemma mapM_app {A B} (f : A -> result B) l m :
  mapM f (l ++ m) = (let* a := mapM f l in let* b := mapM f m in Ok (a ++ b)).
Proof.
  induction l as [|x l IH]; simpl.
  - destruct (mapM f m); reflexivity.
  - destruct (f x); simpl; auto. rewrite IH.
    destruct (mapM f l); simpl; auto. destruct (mapM f m); reflexivity.
Qed.
Lemma mapM_ok {A B} (f : A -> result B) l v :
  mapM f l = Ok v -> Forall2 (fun a b => f a = Ok b) l v.
Proof.
  revert v; induction l as [|x l IH]; simpl; intros v H.
  - injection H; intros <-; constructor.
  - destruct (f x) eqn:E; simpl in H; [|discriminate].
    destruct (mapM f l); simpl in H; [|discriminate].
    injection H; intros <-. constructor; auto.
Qed.
Lemma mapM_ok_iff {A B} (f : A -> result B) l v :
  mapM f l = Ok v <-> Forall2 (fun a b => f a = Ok b) l v.
Proof.
  split; [apply mapM_ok|]. induction 1 as [|a b l v H _ IH]; simpl; auto.
  rewrite H; simpl. rewrite IH; reflexivity.
Qed.
Lemma mapM_ext {A B} (f g : A -> result B) l :
  (forall a, In a l -> f a = g a) -> mapM f l = mapM g l.
Proof.
  induction l as [|x l IH]; intros H; simpl; auto.
  rewrite (H x) by (left; reflexivity). destruct (g x); simpl; auto.
  rewrite IH; auto. intros; apply H; right; auto.
Qed.

Section T.
  Context {N : Num}.
  Notation pt := (N * N * N)%type.

  (** ** The contributions added up by compute_u, as a list of fields *)
  Definition root_terms (t : turbine N) (o : opts N) (chi : N) (Yl : list (list pt))
    : result (list (list pt)) :=
    match o_root o, t_Gr t with
    | true, Some Gr =>
        if Gr =? #0 then Ok []
        else mapM (fun Y => if skewed chi then svc_root_u Gr (ntan N chi) false Y
                            else Ok (vc_root_u Gr false Y)) Yl
    | _, _ => Ok []
    end.
  Definition single1_terms (t : turbine N) (o : opts N) (Model : string) (chi g : N) (Y : list pt)
    : result (list (list pt)) :=
    let* a := if o_tang o && negb (g =? #0)
              then let* v := cu_tang1 t o Model chi g Y in Ok [v] else Ok [] in
    let* gl := gl_active1 t (o_longi o) in
    let* b := match gl with
              | Some gl => let* v := cu_longi1 t Model chi gl Y in Ok [v]
              | None => Ok []
              end in
    Ok (a ++ b).
  Definition single_terms t o Model chi g (Yl : list (list pt)) : result (list (list pt)) :=
    let* l := mapM (single1_terms t o Model chi g) Yl in Ok (List.concat l).
  Definition multi_terms (t : turbine N) (o : opts N) (Model : string) (chi : N) (gs : list N)
             (ground : bool) (cyl : pt) (pts : list pt) : result (list (list pt)) :=
    let m := ntan N chi in
    if String.eqb Model "VC" then
      match t_r t, t_gl t with
      | None, _ => Err ETypeError
      | _, None => Err EAttributeError
      | Some r, Some gl =>
          if negb (Nat.eqb (len gs) (len r)) then Err EValueError
          else if match gl with Some gl => negb (Nat.eqb (len gl) (len r)) | None => false end
          then Err EValueError
          else Ok ((if o_tang o then
                      [if skewed chi
                       then svcs_tang_u 180 ground [(cyl, map2 (fun g r => (g, r, m)) gs r)] pts
                       else vcs_tang_u (#0) ground [(cyl, map2 pair gs r)] pts]
                    else []) ++
                   match o_longi o, gl with
                   | true, Some gl =>
                       [if skewed chi
                        then svcs_longi_u 180 ground [(cyl, map2 (fun g r => (g, r, m)) gl r)] pts
                        else vcs_longi_u ground [(cyl, map2 pair gl r)] pts]
                   | _, _ => []
                   end)
      end
    else Err (ENotImplemented ("Model" ++ Model)).

  Lemma cu_root_terms (t : turbine N) o chi Yl u :
    cu_root t o chi Yl u = (let* vs := root_terms t o chi Yl in Ok (fsum u vs)).
  Proof.
    unfold cu_root, root_terms. destruct (o_root o); auto. destruct (t_Gr t) as [Gr|]; auto.
    destruct (neqb N Gr _); auto.
    set (F := fun Y => if skewed chi then svc_root_u Gr (ntan N chi) false Y
                       else Ok (vc_root_u Gr false Y)).
    assert (HE : forall Yl e, fold_left (fun acc Y => let* u0 := acc in let* v := F Y in Ok (fadd u0 v))
                             Yl (Err e) = Err e).
    { clear. induction Yl; simpl; auto. }
    assert (H : forall Yl u, fold_left (fun acc Y => let* u0 := acc in let* v := F Y in Ok (fadd u0 v))
                             Yl (Ok u) = (let* vs := mapM F Yl in Ok (fsum u vs))).
    { clear Yl u; induction Yl as [|Y Yl IH]; intros u; simpl; auto.
      destruct (F Y) as [v|e]; simpl.
      - rewrite IH. destruct (mapM F Yl); reflexivity.
      - apply HE. }
    apply H.
  Qed.

  Lemma cu_single_terms (t : turbine N) o Model chi g Yl u :
    cu_single t o Model chi g Yl u =
    (let* vs := single_terms t o Model chi g Yl in Ok (fsum u vs)).
  Proof.
    unfold cu_single, single_terms.
    set (S1 := fun acc Y => _ : result (list pt)).
    assert (HE : forall Yl e, fold_left S1 Yl (Err e) = Err e).
    { clear. induction Yl; simpl; auto. }
    assert (H1 : forall Y u, S1 (Ok u) Y =
       (let* vs := single1_terms t o Model chi g Y in Ok (fsum u vs))).
    { clear. intros Y u. unfold S1, single1_terms. simpl.
      destruct (o_tang o && negb (neqb N g _)); simpl.
      - destruct (cu_tang1 t o Model chi g Y) as [v|e]; simpl; auto.
        destruct (gl_active1 t (o_longi o)) as [[gl|]|]; simpl; auto.
        destruct (cu_longi1 t Model chi gl Y); reflexivity.
      - destruct (gl_active1 t (o_longi o)) as [[gl|]|]; simpl; auto.
        destruct (cu_longi1 t Model chi gl Y); reflexivity. }
    revert u; induction Yl as [|Y Yl IH]; intros u; [reflexivity|].
    cbn [fold_left mapM]. rewrite H1.
    destruct (single1_terms t o Model chi g Y) as [vs|e]; cbn [bind]; [|apply HE].
    rewrite IH.
    destruct (mapM (single1_terms t o Model chi g) Yl) as [ws|e]; cbn [bind]; auto.
    cbn [List.concat]. unfold fsum. rewrite fold_left_app. reflexivity.
  Qed.

  Lemma cu_multi_terms (t : turbine N) o Model chi gs ground cyl pts u :
    cu_multi t o Model chi gs ground cyl pts u =
    (let* vs := multi_terms t o Model chi gs ground cyl pts in Ok (fsum u vs)).
  Proof.
    unfold cu_multi, multi_terms. destruct (String.eqb Model "VC"); auto.
    destruct (t_r t) as [r|]; auto. destruct (t_gl t) as [gl|]; auto.
    destruct (negb _); auto.
    destruct (match gl with Some gl => _ | None => _ end); auto.
    destruct (o_tang o); destruct (o_longi o); destruct gl; destruct (skewed chi); reflexivity.
  Qed.

  (** All contributions of one call. *)
  Definition terms (t : turbine N) (o : opts N) (gs : list N) (pts : list pt)
    : result (list (list pt)) :=
    let ground := match o_ground o with Some g => g | None => t_ground t end in
    let Model := match o_Model o with Some m => m | None => t_model t end in
    let M := T_c2g t in
    let ptc := map (transform_T M) pts in
    let cyl := transform_T M (t_rhub t) in
    let Yl := ylist ground cyl ptc in
    let chi := chi_now t in
    let* a := root_terms t o chi Yl in
    let* b := match gs with
              | [g] => single_terms t o Model chi g Yl
              | _ => multi_terms t o Model chi gs ground cyl ptc
              end in
    Ok (a ++ b).
  Definition finish (t : turbine N) (o : opts N) (pts : list pt) (u : list pt) : list pt :=
    let M := T_c2g t in
    let pt0 := map (shift (transform_T M (t_rhub t))) (map (transform_T M) pts) in
    let u := if o_no_wake o
             then map2 (fun p v => if in_wake_tube (t_R t) p then (#0, #0, #0) else v) pt0 u
             else u in
    let ug := map (transform M) u in
    if o_only_ind o then ug else map (fun v => vadd v (t_U0 t)) ug.
  Definition need_loading : exn :=
    EException "Please set loading with `update_loading` before calling `compute_u`".

  Lemma compute_u_terms (t : turbine N) o pts :
    snd (compute_u t o pts) =
    match t_gt t with
    | None => Err need_loading
    | Some gs => let* vs := terms t o gs pts in Ok (finish t o pts (fsum (fzero pts) vs))
    end.
  Proof.
    unfold compute_u, terms, finish; cbn [snd].
    destruct (t_gt t) as [gs|]; [|reflexivity].
    rewrite cu_root_terms.
    destruct (root_terms _ _ _ _) as [a|e]; cbn [bind]; auto.
    assert (H : forall vs u, fsum (fsum u a) vs = fsum u (a ++ vs)).
    { intros; unfold fsum; rewrite fold_left_app; reflexivity. }
    destruct gs as [|g [|g' gs]].
    - rewrite cu_multi_terms. destruct (multi_terms _ _ _ _ _ _ _ _) as [b|e]; cbn [bind]; auto.
      rewrite H; reflexivity.
    - rewrite cu_single_terms. destruct (single_terms _ _ _ _ _ _) as [b|e]; cbn [bind]; auto.
      rewrite H; reflexivity.
    - rewrite cu_multi_terms. destruct (multi_terms _ _ _ _ _ _ _ _) as [b|e]; cbn [bind]; auto.
      rewrite H; reflexivity.
  Qed.

  Lemma compute_u_fst (t : turbine N) o pts : fst (compute_u t o pts) = set_chif t (Some (chi_now t)).
  Proof. reflexivity. Qed.

  (** The answer depends on the turbine only through its attributes and [chi_now]. *)
  Lemma compute_u_set_chi (t : turbine N) o pts :
    snd (compute_u (set_chif t (Some (chi_now t))) o pts) = snd (compute_u t o pts).
  Proof. reflexivity. Qed.
  Lemma compute_u_idem (t : turbine N) o pts o' pts' :
    compute_u (fst (compute_u t o pts)) o' pts' =
    (set_chif t (Some (chi_now t)), snd (compute_u t o' pts')).
  Proof. reflexivity. Qed.

  (** ** Lengths *)
  Lemma fsum_length (vs : list (list pt)) u :
    Forall (fun v => len v = len u) vs -> len (fsum u vs) = len u.
  Proof.
    revert u; induction vs as [|v vs IH]; intros u H; simpl; auto.
    inversion H as [|? ? H1 H2]; subst.
    assert (E : len (fadd u v) = len u) by (apply fadd_length; auto).
    unfold fsum in *. cbn [fold_left]. rewrite IH; auto.
    rewrite E; exact H2.
  Qed.
  Lemma root_terms_length (t : turbine N) o chi Yl n vs :
    (forall Y, In Y Yl -> len Y = n) ->
    root_terms t o chi Yl = Ok vs -> Forall (fun v => len v = n) vs.
  Proof.
    unfold root_terms. intros HY.
    destruct (o_root o); [|intros H; injection H; intros <-; constructor].
    destruct (t_Gr t) as [Gr|]; [|intros H; injection H; intros <-; constructor].
    destruct (neqb N Gr _); [intros H; injection H; intros <-; constructor|].
    intros H. apply mapM_ok in H. clear - H HY.
    induction H as [|Y v Yl vs H _ IH]; constructor.
    - rewrite <- (HY Y) by (left; auto).
      destruct (skewed chi); [apply svc_root_u_length in H; auto|].
      injection H; intros <-; apply vc_root_u_length.
    - apply IH. intros; apply HY; right; auto.
  Qed.
  Lemma cu_tang1_length (t : turbine N) o Model chi g Y v :
    cu_tang1 t o Model chi g Y = Ok v -> len v = len Y.
  Proof.
    unfold cu_tang1. destruct (skewed chi).
    - destruct (String.eqb Model "VC"); [|discriminate].
      intros H; injection H; intros <-; apply map_length.
    - destruct (String.eqb Model "VC").
      { intros H; injection H; intros <-; apply vc_tang_u_length. }
      destruct (String.eqb Model "VCFF").
      { intros H; apply vc_tang_u_doublet_length in H; auto. }
      destruct (String.eqb Model "VD").
      { intros H; injection H; intros <-; apply map_length. }
      destruct (String.eqb Model "SS"); [|discriminate].
      intros H; injection H; intros <-; apply map_length.
  Qed.
  Lemma cu_longi1_length (t : turbine N) Model chi g Y v :
    cu_longi1 t Model chi g Y = Ok v -> len v = len Y.
  Proof.
    unfold cu_longi1. destruct (skewed chi).
    - destruct (String.eqb Model "VC"); [|discriminate].
      intros H; injection H; intros <-; apply map_length.
    - destruct (String.eqb Model "VC"); [|discriminate].
      intros H; injection H; intros <-; apply vc_longi_u_length.
  Qed.
  Lemma single1_terms_length (t : turbine N) o Model chi g Y vs :
    single1_terms t o Model chi g Y = Ok vs -> Forall (fun v => len v = len Y) vs.
  Proof.
    unfold single1_terms.
    destruct (if o_tang o && negb (g =? #0) then _ else _) as [a|e] eqn:Ea; cbn [bind]; [|discriminate].
    destruct (gl_active1 t (o_longi o)) as [gl|e]; cbn [bind]; [|discriminate].
    assert (Ha : Forall (fun v => len v = len Y) a).
    { destruct (o_tang o && negb (g =? #0)).
      - destruct (cu_tang1 _ _ _ _ _ _) eqn:E; [|discriminate].
        injection Ea; intros <-. constructor; [|constructor]. eapply cu_tang1_length; eauto.
      - injection Ea; intros <-; constructor. }
    destruct gl as [gl|].
    - destruct (cu_longi1 _ _ _ _ _) eqn:E; cbn [bind]; [|discriminate].
      intros H; injection H; intros <-. apply Forall_app; split; auto.
      constructor; [|constructor]. eapply cu_longi1_length; eauto.
    - intros H; injection H; intros <-. rewrite app_nil_r; auto.
  Qed.
  Lemma single_terms_length (t : turbine N) o Model chi g Yl n vs :
    (forall Y, In Y Yl -> len Y = n) ->
    single_terms t o Model chi g Yl = Ok vs -> Forall (fun v => len v = n) vs.
  Proof.
    unfold single_terms. intros HY.
    destruct (mapM _ Yl) as [l|e] eqn:E; cbn [bind]; [|discriminate].
    intros H; injection H; intros <-. apply mapM_ok in E. clear - E HY.
    induction E as [|Y v Yl vs H _ IH]; simpl; [constructor|].
    apply Forall_app; split.
    - rewrite <- (HY Y) by (left; auto). eapply single1_terms_length; eauto.
    - apply IH. intros; apply HY; right; auto.
  Qed.

  Lemma fold_len {A} (F : list pt -> A -> list pt) l u n :
    (forall u a, In a l -> len u = n -> len (F u a) = n) -> len u = n ->
    len (fold_left F l u) = n.
  Proof.
    revert u; induction l as [|a l IH]; intros u H Hu; simpl; auto.
    apply IH; [intros; apply H; auto; right; auto|]. apply H; auto. left; auto.
  Qed.
  Lemma vcs_tang_u_length eps ground cyls (pts : list pt) :
    len (vcs_tang_u eps ground cyls pts) = len pts.
  Proof.
    unfold vcs_tang_u, vcs_tang_u_gen. apply fold_len; [|apply fzero_length].
    intros u cyl _ Hu. apply fold_len; auto.
    intros u1 Y HY Hu1. apply fold_len; auto. intros u2 gr _ Hu2.
    destruct (nlt N _ _); auto. rewrite fadd_length; auto. rewrite Hu2.
    symmetry. rewrite <- (shift_ylist_length _ _ _ _ HY). apply vc_tang_u_length.
  Qed.
  Lemma vcs_longi_u_length ground cyls (pts : list pt) :
    len (vcs_longi_u ground cyls pts) = len pts.
  Proof.
    unfold vcs_longi_u, vcs_longi_u_gen. apply fold_len; [|apply fzero_length].
    intros u cyl _ Hu. apply fold_len; auto.
    intros u1 gr _ Hu2.
    destruct (nlt N _ _); auto. rewrite fadd_length; auto. rewrite Hu2.
    symmetry. change (vc_longi_u_gen ellipticPiCarlson) with (@vc_longi_u N).
    rewrite vc_longi_u_length. apply map_length.
  Qed.
  Lemma svcs_tang_u_length n ground cyls (pts : list pt) :
    len (svcs_tang_u n ground cyls pts) = len pts.
  Proof.
    unfold svcs_tang_u. apply fold_len; [|apply fzero_length].
    intros u cyl _ Hu. apply fold_len; auto.
    intros u1 Y HY Hu1. apply fold_len; auto. intros u2 [[g R] m] _ Hu2.
    destruct (nlt N _ _); auto. rewrite fadd_length; auto. rewrite map_length, Hu2.
    symmetry. apply (shift_ylist_length _ _ _ _ HY).
  Qed.
  Lemma svcs_longi_u_length n ground cyls (pts : list pt) :
    len (svcs_longi_u n ground cyls pts) = len pts.
  Proof.
    unfold svcs_longi_u. apply fold_len; [|apply fzero_length].
    intros u cyl _ Hu. apply fold_len; auto.
    intros u1 Y HY Hu1. apply fold_len; auto. intros u2 [[g R] m] _ Hu2.
    destruct (nlt N _ _); auto. rewrite fadd_length; auto. rewrite !map_length, Hu2.
    reflexivity.
  Qed.
  Lemma multi_terms_length (t : turbine N) o Model chi gs ground cyl pts vs :
    multi_terms t o Model chi gs ground cyl pts = Ok vs -> Forall (fun v => len v = len pts) vs.
  Proof.
    unfold multi_terms. destruct (String.eqb Model "VC"); [|discriminate].
    destruct (t_r t) as [r|]; [|discriminate]. destruct (t_gl t) as [gl|]; [|discriminate].
    destruct (negb _); [discriminate|].
    destruct (match gl with Some gl => _ | None => _ end); [discriminate|].
    intros H; injection H; intros <-. apply Forall_app; split.
    - destruct (o_tang o); [|constructor]. constructor; [|constructor].
      destruct (skewed chi); [apply svcs_tang_u_length|apply vcs_tang_u_length].
    - destruct (o_longi o); [|constructor]. destruct gl; [|constructor]. constructor; [|constructor].
      destruct (skewed chi); [apply svcs_longi_u_length|apply vcs_longi_u_length].
  Qed.
  Lemma terms_length (t : turbine N) o gs pts vs :
    terms t o gs pts = Ok vs -> Forall (fun v => len v = len pts) vs.
  Proof.
    unfold terms.
    assert (HY : forall g c Y, In Y (ylist g c (map (transform_T (T_c2g t)) pts)) -> len Y = len pts).
    { intros g c Y H. apply shift_ylist_length in H. rewrite map_length in H; auto. }
    destruct (root_terms _ _ _ _) as [a|e] eqn:Ea; cbn [bind]; [|discriminate].
    apply root_terms_length with (n := len pts) in Ea; [|intros; eapply HY; eauto].
    destruct (match gs with [g] => _ | _ => _ end) as [b|e] eqn:Eb; cbn [bind]; [|discriminate].
    intros H; injection H; intros <-. apply Forall_app; split; auto.
    destruct gs as [|g [|g' gs]].
    - apply multi_terms_length in Eb. rewrite map_length in Eb; auto.
    - apply single_terms_length with (n := len pts) in Eb; auto. intros; eapply HY; eauto.
    - apply multi_terms_length in Eb. rewrite map_length in Eb; auto.
  Qed.
  Lemma finish_length (t : turbine N) o pts u : len u = len pts -> len (finish t o pts u) = len pts.
  Proof.
    intros H. unfold finish.
    destruct (o_no_wake o); destruct (o_only_ind o);
      rewrite ?map_length, ?map2_length, ?map_length; lia.
  Qed.
  Lemma compute_u_length (t : turbine N) o pts v : snd (compute_u t o pts) = Ok v -> len v = len pts.
  Proof.
    rewrite compute_u_terms. destruct (t_gt t) as [gs|]; [|discriminate].
    destruct (terms t o gs pts) as [vs|e] eqn:E; cbn [bind]; [|discriminate].
    intros H; injection H; intros <-. apply finish_length.
    apply terms_length in E. rewrite fsum_length; rewrite ?fzero_length; auto.
  Qed.
End T.
