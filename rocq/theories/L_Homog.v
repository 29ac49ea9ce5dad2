(** * The induced velocities are linear in the vorticity, in any arithmetic that respects a relation like "k times" or "opposite" *)
From Coq Require Import ZArith List Bool String Lia.
From Verif Require Import Num M_Elliptic M_Line M_Doublet M_Cylinder M_Misc M_Skewed M_Solver M_Turbine M_Farm.
Import ListNotations.
Local Open Scope list_scope.
Local Notation len := List.length.

(** [O a a']: the number [a'] is the multiple of [a] in question (both zero, both NaN included).  Sums and differences of related numbers are related;
    products and quotients by one and the same number are related; tests against zero do not see the difference. *)
Record multiple {N : Num} (O : N -> N -> Prop) : Prop := {
  h_0 : O (nZ N 0) (nZ N 0);
  h_nan : O (nnan N) (nnan N);
  h_add : forall a a' b b', O a a' -> O b b' -> O (nadd N a b) (nadd N a' b');
  h_sub : forall a a' b b', O a a' -> O b b' -> O (nsub N a b) (nsub N a' b');
  h_opp : forall a a', O a a' -> O (nopp N a) (nopp N a');
  h_mul : forall a a' b, O a a' -> O (nmul N a b) (nmul N a' b);
  h_mulr : forall a a' b, O a a' -> O (nmul N b a) (nmul N b a');
  h_div : forall a a' b, O a a' -> O (ndiv N a b) (ndiv N a' b);
  h_mul0 : forall r, O (nmul N r (nZ N 0)) (nmul N r (nZ N 0));
  h_eq0 : forall a a', O a a' -> neqb N a' (nZ N 0) = neqb N a (nZ N 0);
  h_abs0 : forall a a', O a a' -> nlt N (nZ N 0) (nabs N a') = nlt N (nZ N 0) (nabs N a) }.

(** the turbine with other intensities *)
Definition with_vorticity {N : Num} (f : N -> N) (t : turbine N) : turbine N :=
  {| t_R := t_R t; t_rhub := t_rhub t; t_shaft := t_shaft t; t_shaft0 := t_shaft0 t; t_vert := t_vert t; t_horz := t_horz t;
     t_TF2g := t_TF2g t; t_Tc2wt := t_Tc2wt t; t_Twt2g := t_Twt2g t; t_yaw := t_yaw t; t_U0 := t_U0 t;
     t_r := t_r t; t_gt := option_map (map f) (t_gt t); t_gl := option_map (option_map (map f)) (t_gl t); t_Gr := option_map f (t_Gr t);
     t_Lambda := t_Lambda t; t_ground := t_ground t; t_chi := t_chi t; t_model := t_model t; t_Ct := t_Ct t; t_name := t_name t |}.

Section Homog.
  Context {N : Num} (O : N -> N -> Prop) (HO : multiple O).
  Notation pt := (N * N * N)%type.
  Definition O3 (p q : pt) : Prop := let '(a, b, c) := p in let '(a', b', c') := q in O a a' /\ O b b' /\ O c c'.
  Definition O2 (p q : N * N) : Prop := O (fst p) (fst q) /\ O (snd p) (snd q).
  Ltac hom := repeat (first [ eassumption | exact (h_0 _ HO) | exact (h_nan _ HO) | apply (h_mul0 _ HO) |
    lazymatch goal with
    | |- O (nmul _ ?a _) (nmul _ ?a _) => apply (h_mulr _ HO)
    | |- O (nmul _ _ _) (nmul _ _ _) => apply (h_mul _ HO)
    | |- O (ndiv _ _ _) (ndiv _ _ _) => apply (h_div _ HO)
    | |- O (nadd _ _ _) (nadd _ _ _) => apply (h_add _ HO)
    | |- O (nsub _ _ _) (nsub _ _ _) => apply (h_sub _ HO)
    | |- O (nopp _ _) (nopp _ _) => apply (h_opp _ HO)
    | |- O3 (_, _, _) (_, _, _) => split; [|split]
    | |- O2 (_, _) (_, _) => split; cbn [fst snd]
    end ]).
  Definition Or (r r' : result (list pt)) : Prop :=
    match r, r' with Ok u, Ok u' => Forall2 O3 u u' | Err e, Err e' => e = e' | _, _ => False end.

  (** ** lists *)
  Lemma F_map {A B : Type} (P : B -> B -> Prop) (f g : A -> B) : (forall x, P (f x) (g x)) -> forall l, Forall2 P (map f l) (map g l).
  Proof. intros H. induction l; constructor; auto. Qed.
  Lemma F_map2 {A B : Type} (P : B -> B -> Prop) {C : Type} (f g : A -> C -> B) : (forall x y, P (f x y) (g x y)) -> forall l m, Forall2 P (map2 f l m) (map2 g l m).
  Proof. intros H. induction l; intros [|y m]; cbn; constructor; auto. Qed.
  Lemma F_map2' {A B C : Type} (Q : C -> C -> Prop) (P : B -> B -> Prop) (f : A -> C -> B) : (forall x y y', Q y y' -> P (f x y) (f x y')) ->
    forall l m m', Forall2 Q m m' -> Forall2 P (map2 f l m) (map2 f l m').
  Proof. intros H. induction l as [|a l IH]; intros m m' HF; [constructor|]. destruct HF; cbn; constructor; auto. Qed.
  Lemma F_mapF {A B : Type} (Q : A -> A -> Prop) (P : B -> B -> Prop) (f : A -> B) : (forall y y', Q y y' -> P (f y) (f y')) ->
    forall m m', Forall2 Q m m' -> Forall2 P (map f m) (map f m').
  Proof. intros H m m' HF. induction HF; constructor; auto. Qed.
  Lemma F_scatter {A : Type} (P : A -> A -> Prop) : forall mask v v' d d', Forall2 P v v' -> Forall2 P d d' -> Forall2 P (scatter mask v d) (scatter mask v' d').
  Proof.
    induction mask as [|b mask IH]; intros v v' d d' HV HD; [destruct HD; cbn; constructor; auto|].
    destruct HD; [destruct b; constructor|]. destruct b; cbn.
    - destruct HV; constructor; auto.
    - constructor; auto.
  Qed.
  Lemma O_trapz : forall y y' x, Forall2 O y y' -> O (trapz y x) (trapz y' x).
  Proof.
    intros y y' x H. revert x. induction H as [|a a' y y' H1 H2 IH]; intros x; [cbn; hom|]. destruct H2 as [|b b' y y' H2 H3]; [destruct x; cbn; hom|].
    destruct x as [|x0 [|x1 x]]; [cbn; hom..|]. cbn [trapz]. specialize (IH (x1 :: x)). hom.
  Qed.
  Lemma O3_add p p' q q' : O3 p p' -> O3 q q' -> O3 (vadd p q) (vadd p' q').
  Proof. destruct p as [[? ?] ?], p' as [[? ?] ?], q as [[? ?] ?], q' as [[? ?] ?]. cbn. intros (? & ? & ?) (? & ? & ?). repeat split; hom. Qed.
  Lemma F_fadd : forall u u' v v', Forall2 O3 u u' -> Forall2 O3 v v' -> Forall2 O3 (fadd u v) (fadd u' v').
  Proof.
    intros u u' v v' HU HV. unfold fadd. revert v v' HV. induction HU; intros v v' HV; [constructor|]. destruct HV; cbn; constructor; auto. apply O3_add; assumption.
  Qed.
  Lemma F_fzero pts : Forall2 O3 (fzero pts) (fzero pts).
  Proof. unfold fzero. apply F_map. intros _. cbn. repeat split; hom. Qed.

  (** ** kernels *)
  Lemma O_cart p u u' : O2 u u' -> O3 (cart_of_polar2 p u) (cart_of_polar2 p u').
  Proof. destruct p as [[x y] z]. intros [H1 H2]. cbn. repeat split; hom. Qed.
  Lemma O_tangp PIb R eps pts g g' : O g g' -> Forall2 O2 (vc_tang_polar_gen PIb g R eps pts) (vc_tang_polar_gen PIb g' R eps pts).
  Proof.
    intros H. unfold vc_tang_polar_gen. apply F_scatter.
    - apply F_map2. intros [r z] P. unfold vc_reg. hom.
    - apply F_map. intros [r z]. unfold vc_special, vc_axis_uz. destruct (vc_isrim R r z); hom.
  Qed.
  Lemma O_tang PIb R eps pts g g' : O g g' -> Forall2 O3 (vc_tang_u_gen PIb g R eps pts) (vc_tang_u_gen PIb g' R eps pts).
  Proof. intros H. unfold vc_tang_u_gen. apply (F_map2' O2); [intros; apply O_cart; assumption|]. apply O_tangp, H. Qed.
  Lemma O_dline d d' p : O d d' -> O2 (doublet_line_polar_pt d p) (doublet_line_polar_pt d' p).
  Proof.
    intros H. destruct p as [r z]. unfold doublet_line_polar_pt. cbv zeta.
    repeat match goal with |- context [if ?b then _ else _] => destruct b end; hom.
  Qed.
  Lemma O_ff PIb R cut pts g g' : O g g' -> Or (vc_tang_u_doublet_gen PIb g R cut pts) (vc_tang_u_doublet_gen PIb g' R cut pts).
  Proof.
    intros H. unfold vc_tang_u_doublet_gen, vc_tang_doublet_polar_gen, doublet_line_polar_u. destruct (any_neg _); [reflexivity|]. cbn [Num.bind Or].
    apply (F_map2' O2); [intros; apply O_cart; assumption|]. apply F_scatter; [apply F_map; intros; apply O_dline; hom|]. apply F_scatter; [apply O_tangp, H|]. apply F_map. intros _. hom.
  Qed.
  Lemma O_dlineu d d' m L p : O d d' -> O3 (doublet_line_u d m L p) (doublet_line_u d' m L p).
  Proof.
    intros H. destruct p as [[x y] z]. unfold doublet_line_u. cbv zeta. match goal with |- context [if ?b then (_, _, _) else _] => destruct b end; [cbn; repeat split; hom|].
    match goal with |- context [if ?b then ?p else integrals_DL_finite ?x1 ?x2 ?x3 ?x4] => destruct (if b then p else integrals_DL_finite x1 x2 x3 x4) as [[[a1 a2] a3] a4] end. cbn. repeat split; hom.
  Qed.
  Lemma O_ss g g' R l e p : O g g' -> O (ss_u g R l e p) (ss_u g' R l e p).
  Proof. intros H. destruct p as [[x y] z]. unfold ss_u. cbv zeta. match goal with |- context [if ?b then _ else _] => destruct b end; hom. Qed.
  Lemma O_upsi g g' R rz P : O g g' -> O (vc_longi_upsi g R rz P) (vc_longi_upsi g' R rz P).
  Proof. intros H. destruct rz as [r z]. unfold vc_longi_upsi. hom. Qed.
  Lemma O_longi PIb R pts g g' : O g g' -> Forall2 O3 (vc_longi_u_gen PIb g R false pts) (vc_longi_u_gen PIb g' R false pts).
  Proof.
    intros H. unfold vc_longi_u_gen, vc_longi_u_polar_gen. apply (F_map2' O).
    - intros [[r psi] z] u u' HU. cbn. repeat split; hom.
    - apply F_map2. intros. apply O_upsi, H.
  Qed.
  Lemma O_line g g' p : O g g' -> O3 (vl_semiinf_straight_u g false p) (vl_semiinf_straight_u g' false p).
  Proof.
    intros H. destruct p as [[x y] z]. unfold vl_semiinf_straight_u, vl_semiinf_straight_u_polar, vl_straight_cart_of_polar. rewrite (h_eq0 _ HO _ _ H).
    destruct (neqb N g (nZ N 0)); cbn; repeat split; hom.
  Qed.
  Lemma O_svt g g' R m n p : O g g' -> O3 (svc_tang_u g R m n false p) (svc_tang_u g' R m n false p).
  Proof.
    intros H. unfold svc_tang_u, svc_tang_u_polar. destruct (to_polar p) as [[r psi] z]. unfold svc_trap.
    split; [|split]; apply O_trapz, F_map; intros th; unfold svc_int, svc_D; hom.
  Qed.
  Lemma O_svl g g' R m n p : O g g' -> O3 (svc_longi_u g R m n false p) (svc_longi_u g' R m n false p).
  Proof.
    intros H. unfold svc_longi_u, svc_longi_u_polar. destruct (to_polar p) as [[r psi] z].
    split; [|split]; apply O_trapz, F_map; intros th; unfold svl_den; hom.
  Qed.
  Lemma O_svr g g' m pts : O g g' -> Or (svc_root_u g m false pts) (svc_root_u g' m false pts).
  Proof.
    intros H. unfold svc_root_u, svc_root_u_polar. rewrite (h_eq0 _ HO _ _ H). destruct (neqb N g (nZ N 0)).
    { cbn. apply F_map. intros [[r psi] z]. cbn. repeat split; hom. }
    destruct (neqb N m (nZ N 0)); [cbn; apply F_map; intros [[r psi] z]; unfold svr_m0, svr_out; cbn; repeat split; hom|].
    destruct (map to_polar pts) as [|q Q]; [reflexivity|]. match goal with |- context [if ?b then _ else _] => destruct b end; cbn [Or]; apply F_map; intros [[r psi] z].
    - unfold svr_general, vl_semiinf_u. cbv zeta. match goal with |- context [if ?b then Ok VLsing else _] => destruct b end; cbn; repeat split; hom.
    - unfold svr_plane. match goal with |- context [if ?b then _ else _] => destruct b end; cbn; repeat split; hom.
  Qed.

  (** ** the turbine *)
  Lemma Or_bind (r r' : result (list pt)) (f f' : list pt -> result (list pt)) : Or r r' -> (forall u u', Forall2 O3 u u' -> Or (f u) (f' u')) -> Or (Num.bind r f) (Num.bind r' f').
  Proof. destruct r, r'; cbn; intros H K; try contradiction; auto. Qed.
  Lemma O_fold {A B : Type} (P : B -> B -> Prop) (f f' : B -> A -> B) : (forall b b' a, P b b' -> P (f b a) (f' b' a)) -> forall l b b', P b b' -> P (fold_left f l b) (fold_left f' l b').
  Proof. intros H. induction l as [|a l IH]; intros b b' HB; [exact HB|]. cbn. apply IH, H, HB. Qed.
  Lemma O_fold2 {A B : Type} (Q : A -> A -> Prop) (P : B -> B -> Prop) (f : B -> A -> B) : (forall b b' a a', P b b' -> Q a a' -> P (f b a) (f b' a')) ->
    forall l l' b b', Forall2 Q l l' -> P b b' -> P (fold_left f l b) (fold_left f l' b').
  Proof. intros H l l' b b' HF. revert b b'. induction HF; intros b b' HB; [exact HB|]. cbn. apply IHHF, H; assumption. Qed.

  Variable f : N -> N.
  Hypothesis Hf : forall x, O x (f x).

  Lemma F_f : forall l, Forall2 O l (map f l).
  Proof. induction l; constructor; auto. Qed.
  Lemma H_root t o chi Yl u u' : Forall2 O3 u u' -> Or (cu_root t o chi Yl u) (cu_root (with_vorticity f t) o chi Yl u').
  Proof.
    intros H. unfold cu_root. cbn [with_vorticity t_Gr]. destruct (o_root o); [|exact H]. destruct (t_Gr t) as [G|]; [|exact H]. cbn [option_map]. rewrite (h_eq0 _ HO _ _ (Hf G)).
    destruct (neqb N G (nZ N 0)); [exact H|]. apply (O_fold Or); [|exact H]. intros b b' Y HB. apply Or_bind; [exact HB|]. intros v v' HV. apply Or_bind.
    - destruct (skewed chi); [apply O_svr, Hf|]. cbn. unfold vc_root_u. apply F_map. intros; apply O_line, Hf.
    - intros w w' HW. apply F_fadd; assumption.
  Qed.
  Lemma H_tang1 t o M chi g g' Y : O g g' -> Or (cu_tang1 t o M chi g Y) (cu_tang1 (with_vorticity f t) o M chi g' Y).
  Proof.
    intros H. unfold cu_tang1. cbn [with_vorticity t_R]. destruct (skewed chi).
    - destruct (String.eqb M "VC"); [|reflexivity]. cbn. apply F_map. intros; apply O_svt, H.
    - destruct (String.eqb M "VC"); [cbn; apply O_tang, H|]. destruct (String.eqb M "VCFF"); [apply O_ff, H|].
      destruct (String.eqb M "VD"); [cbn; apply F_map; intros; apply O_dlineu; hom|]. destruct (String.eqb M "SS"); [|reflexivity].
      cbn. apply F_map. intros p. pose proof (O_ss g g' (t_R t) ss_lambda ss_eta p H) as K. cbn. repeat split; hom.
  Qed.
  Lemma H_longi1 t M chi g g' Y : O g g' -> Or (cu_longi1 t M chi g Y) (cu_longi1 (with_vorticity f t) M chi g' Y).
  Proof.
    intros H. unfold cu_longi1. cbn [with_vorticity t_R]. destruct (skewed chi); (destruct (String.eqb M "VC"); [|reflexivity]); cbn; [apply F_map; intros; apply O_svl, H|apply O_longi, H].
  Qed.
  Lemma H_active t b : match gl_active1 t b, gl_active1 (with_vorticity f t) b with
    | Ok None, Ok None => True | Ok (Some g), Ok (Some g') => O g g' | Err e, Err e' => e = e' | _, _ => False end.
  Proof.
    unfold gl_active1. cbn [with_vorticity t_gl]. destruct (negb b); [exact I|]. destruct (t_gl t) as [[[|g [|g2 l]]|]|]; cbn [option_map map]; try reflexivity; try exact I.
    rewrite (h_eq0 _ HO _ _ (Hf g)). destruct (neqb N g (nZ N 0)); [exact I|apply Hf].
  Qed.
  Lemma H_single t o M chi g Yl u u' : Forall2 O3 u u' -> Or (cu_single t o M chi g Yl u) (cu_single (with_vorticity f t) o M chi (f g) Yl u').
  Proof.
    intros H. unfold cu_single. apply (O_fold Or); [|exact H]. intros b b' Y HB. apply Or_bind; [exact HB|]. intros v v' HV. apply Or_bind.
    - rewrite (h_eq0 _ HO _ _ (Hf g)). destruct (o_tang o && negb (neqb N g (nZ N 0))); [|exact HV]. apply Or_bind; [apply H_tang1, Hf|]. intros; apply F_fadd; assumption.
    - intros w w' HW. pose proof (H_active t (o_longi o)) as K. destruct (gl_active1 t (o_longi o)) as [[gl|]|e], (gl_active1 (with_vorticity f t) (o_longi o)) as [[gl'|]|e']; cbn in *; try contradiction; try assumption.
      apply Or_bind; [apply H_longi1, K|]. intros; apply F_fadd; assumption.
  Qed.
  Definition Q2 (a b : N * N) : Prop := O (fst a) (fst b) /\ snd a = snd b.
  Definition Q3 (a b : N * N * N) : Prop := O (fst (fst a)) (fst (fst b)) /\ snd (fst a) = snd (fst b) /\ snd a = snd b.
  Lemma F_pair gs r : Forall2 Q2 (map2 pair gs r) (map2 pair (map f gs) r).
  Proof. revert r. induction gs as [|g gs IH]; intros [|x r]; cbn; constructor; [split; cbn; auto|auto]. Qed.
  Lemma F_triple m gs r : Forall2 Q3 (map2 (fun g r => (g, r, m)) gs r) (map2 (fun g r => (g, r, m)) (map f gs) r).
  Proof. revert r. induction gs as [|g gs IH]; intros [|x r]; cbn; constructor; [repeat split; cbn; auto|auto]. Qed.
  Lemma O_vcs_tang e gr c l l' pts : Forall2 Q2 l l' -> Forall2 O3 (vcs_tang_u e gr [(c, l)] pts) (vcs_tang_u e gr [(c, l')] pts).
  Proof.
    intros H. unfold vcs_tang_u, vcs_tang_u_gen. cbn [fold_left fst snd]. apply (O_fold (Forall2 O3)); [|apply F_fzero]. intros b b' Y HB. apply (O_fold2 Q2); [|exact H|exact HB].
    intros u u' a a' HU [H1 H2]. rewrite (h_abs0 _ HO _ _ H1), <- H2. destruct (nlt N _ _); [|exact HU]. apply F_fadd; [exact HU|]. apply O_tang, H1.
  Qed.
  Lemma O_vcs_longi gr c l l' pts : Forall2 Q2 l l' -> Forall2 O3 (vcs_longi_u gr [(c, l)] pts) (vcs_longi_u gr [(c, l')] pts).
  Proof.
    intros H. unfold vcs_longi_u, vcs_longi_u_gen. cbn [fold_left fst snd]. apply (O_fold2 Q2); [|exact H|apply F_fzero].
    intros u u' a a' HU [H1 H2]. rewrite (h_abs0 _ HO _ _ H1), <- H2. destruct (nlt N _ _); [|exact HU]. apply F_fadd; [exact HU|]. apply O_longi, H1.
  Qed.
  Lemma O_svcs_tang n gr c l l' pts : Forall2 Q3 l l' -> Forall2 O3 (svcs_tang_u n gr [(c, l)] pts) (svcs_tang_u n gr [(c, l')] pts).
  Proof.
    intros H. unfold svcs_tang_u. cbn [fold_left fst snd]. apply (O_fold (Forall2 O3)); [|apply F_fzero]. intros b b' Y HB. apply (O_fold2 Q3); [|exact H|exact HB].
    intros u u' [[g R] m] [[g' R'] m'] HU (H1 & H2 & H3). cbn [fst snd] in *. subst R' m'. rewrite (h_abs0 _ HO _ _ H1). destruct (nlt N _ _); [|exact HU].
    apply F_fadd; [exact HU|]. apply F_map. intros; apply O_svt, H1.
  Qed.
  Lemma O_svcs_longi n gr c l l' pts : Forall2 Q3 l l' -> Forall2 O3 (svcs_longi_u n gr [(c, l)] pts) (svcs_longi_u n gr [(c, l')] pts).
  Proof.
    intros H. unfold svcs_longi_u. cbn [fold_left fst snd]. apply (O_fold (Forall2 O3)); [|apply F_fzero]. intros b b' Y HB. apply (O_fold2 Q3); [|exact H|exact HB].
    intros u u' [[g R] m] [[g' R'] m'] HU (H1 & H2 & H3). cbn [fst snd] in *. subst R' m'. rewrite (h_abs0 _ HO _ _ H1). destruct (nlt N _ _); [|exact HU].
    apply F_fadd; [exact HU|]. apply F_map. intros; apply O_svl, H1.
  Qed.
  Lemma H_multi t o M chi gs ground cyl pts u u' : Forall2 O3 u u' ->
    Or (cu_multi t o M chi gs ground cyl pts u) (cu_multi (with_vorticity f t) o M chi (map f gs) ground cyl pts u').
  Proof.
    intros H. unfold cu_multi. cbn [with_vorticity t_r t_gl]. destruct (String.eqb M "VC"); [|reflexivity]. destruct (t_r t) as [r|]; [|reflexivity].
    destruct (t_gl t) as [gl|]; cbn [option_map]; [|reflexivity]. rewrite map_length. destruct (negb (Nat.eqb (len gs) (len r))); [reflexivity|].
    replace (match option_map (map f) gl with Some gl => negb (Nat.eqb (len gl) (len r)) | None => false end) with (match gl with Some gl => negb (Nat.eqb (len gl) (len r)) | None => false end)
      by (destruct gl; cbn; rewrite ?map_length; reflexivity).
    destruct (match gl with Some gl => negb (Nat.eqb (len gl) (len r)) | None => false end); [reflexivity|]. cbn [Or].
    assert (HT : Forall2 O3 (if o_tang o then fadd u (if skewed chi then svcs_tang_u 180 ground [(cyl, map2 (fun g r => (g, r, ntan N chi)) gs r)] pts else vcs_tang_u (nZ N 0) ground [(cyl, map2 pair gs r)] pts) else u)
      (if o_tang o then fadd u' (if skewed chi then svcs_tang_u 180 ground [(cyl, map2 (fun g r => (g, r, ntan N chi)) (map f gs) r)] pts else vcs_tang_u (nZ N 0) ground [(cyl, map2 pair (map f gs) r)] pts) else u')).
    { destruct (o_tang o); [|exact H]. apply F_fadd; [exact H|]. destruct (skewed chi); [apply O_svcs_tang, F_triple|apply O_vcs_tang, F_pair]. }
    destruct (o_longi o); [|exact HT]. destruct gl as [gl|]; cbn [option_map]; [|exact HT]. apply F_fadd; [exact HT|]. destruct (skewed chi); [apply O_svcs_longi, F_triple|apply O_vcs_longi, F_pair].
  Qed.
  Lemma O_transform M p q : O3 p q -> O3 (transform M p) (transform M q).
  Proof. destruct M as [[[[? ?] ?] [[? ?] ?]] [[? ?] ?]], p as [[? ?] ?], q as [[? ?] ?]. cbn. intros (? & ? & ?). repeat split; hom. Qed.
  (** the induced velocities *)
  Lemma H_compute t o pts : o_only_ind o = true ->
    fst (compute_u (with_vorticity f t) o pts) = with_vorticity f (fst (compute_u t o pts)) /\ Or (snd (compute_u t o pts)) (snd (compute_u (with_vorticity f t) o pts)).
  Proof.
    intros HI. unfold compute_u. cbn [fst snd]. split; [reflexivity|]. change (chi_now (with_vorticity f t)) with (chi_now t). change (T_c2g (with_vorticity f t)) with (T_c2g t).
    cbn [with_vorticity t_gt t_rhub t_ground t_model t_R t_U0]. fold (with_vorticity f t). destruct (t_gt t) as [gs|]; cbn [option_map]; [|reflexivity].
    apply Or_bind; [apply H_root, F_fzero|]. intros u u' HU. apply Or_bind.
    - destruct gs as [|g [|g2 gs]]; [apply (H_multi t o _ _ []), HU|apply H_single, HU|apply (H_multi t o _ _ (g :: g2 :: gs)), HU].
    - intros w w' HW. rewrite HI. cbn [Or]. apply (F_mapF O3); [intros; apply O_transform; assumption|]. destruct (o_no_wake o); [|exact HW].
      apply (F_map2' O3); [|exact HW]. intros x y y' HY. destruct (in_wake_tube (t_R t) x); [cbn; repeat split; hom|exact HY].
  Qed.
  (** ** the farm *)
  Definition obj_with (x : @obj N) : @obj N := match x with OWT t => OWT (with_vorticity f t) | OOther => OOther end.
  Lemma upd_map'' {A B : Type} (h : A -> B) : forall l i x, upd (map h l) i (h x) = map h (upd l i x).
  Proof. induction l as [|a l IH]; intros [|i] x; cbn; auto. rewrite IH. reflexivity. Qed.
  Lemma H_loop o pts : forall F h u u', Forall2 O3 u u' ->
    fst (farm_loop (map obj_with h) F o pts u') = map obj_with (fst (farm_loop h F o pts u)) /\ Or (snd (farm_loop h F o pts u)) (snd (farm_loop (map obj_with h) F o pts u')).
  Proof.
    induction F as [|k F IH]; intros h u u' H; [split; [reflexivity|exact H]|]. cbn [farm_loop]. rewrite nth_error_map. destruct (nth_error h k) as [[t|]|]; cbn [option_map obj_with]; [|split; reflexivity..].
    pose proof (H_compute t (farm_opts o) pts eq_refl) as [K1 K2]. destruct (compute_u t (farm_opts o) pts) as [t1 [v|e]], (compute_u (with_vorticity f t) (farm_opts o) pts) as [t1' [v'|e']];
      cbn [fst snd Or] in *; try contradiction; subst t1'.
    - change (OWT (with_vorticity f t1)) with (obj_with (OWT t1)). rewrite upd_map''. apply IH. apply F_fadd; assumption.
    - change (OWT (with_vorticity f t1)) with (obj_with (OWT t1)). rewrite upd_map''. split; [reflexivity|exact K2].
  Qed.
  Lemma H_farm h F o pts : 
    fst (velocity_field (map obj_with h) F o None pts) = map obj_with (fst (velocity_field h F o None pts)) /\
    Or (snd (velocity_field h F o None pts)) (snd (velocity_field (map obj_with h) F o None pts)).
  Proof.
    unfold velocity_field. destruct (H_loop o pts F h (fzero pts) (fzero pts) (F_fzero pts)) as [K1 K2].
    destruct (farm_loop h F o pts (fzero pts)) as [h1 r], (farm_loop (map obj_with h) F o pts (fzero pts)) as [h1' r']. cbn [fst snd] in *. split; [exact K1|].
    destruct r, r'; cbn in *; try contradiction; assumption.
  Qed.
End Homog.
