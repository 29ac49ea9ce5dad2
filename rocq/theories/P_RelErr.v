(** * C149, C150: accessors of the article's vortex model and its table of relative errors *)
From Coquelicot Require Import Coquelicot.
From Coq Require Import ZArith List Bool Arith Lia String Reals Lra.
From Verif Require Import Num NumR NumX Spec M_Elliptic M_Line M_Doublet M_Misc M_Cylinder M_Skewed M_Solver M_Turbine M_Farm M_Helpers M_RelErr L_List L_Calc L_X L_Turbine L_State L_Farm L_Geom L_Angles L_TurbineX L_TurbineY L_Multi L_Built L_Layout P_Turbine P_Line P_Skewed P_Cylinder2 P_Grid P_Farm P_Centre P_Helpers P_FarmHelp P_Nearest.
Import ListNotations.
Local Notation len := List.length.
Local Open Scope R_scope.

(** ** C149: the accessors *)
Lemma zero_fin x : nmul XN (Fin x) (nZ XN 0) = Fin 0.
Proof. xn. f_equal. ring. Qed.
(** [lift] of real coordinates *)
Definition fins (l : list R) : list XN := map Fin l.
(** the nodes of the grid, row after row of constant z *)
Definition grid_nodes (hs zs : list R) : list (R * R) := flat_map (fun z => map (fun h => (h, z)) hs) zs.
Lemma meshgrid_X hs zs : meshgrid (N := XN) (fins hs) (fins zs) = map (fun p => (Fin (fst p) : XN, Fin (snd p) : XN)) (grid_nodes hs zs).
Proof.
  unfold meshgrid, grid_nodes, fins. rewrite map_map, flat_map_concat_map, concat_map, map_map. f_equal. apply map_ext. intros z. now rewrite !map_map.
Qed.
Lemma fins_len l : len (fins l) = len l.
Proof. apply map_length. Qed.
Lemma F2_len {A B} (P : A -> B -> Prop) l m : Forall2 P l m -> len l = len m.
Proof. induction 1; cbn; congruence. Qed.
Lemma rep_nth {A} (a : A) n j : (j < n)%nat -> nth_error (repeat a n) j = Some a.
Proof. revert j; induction n as [|n IH]; intros [|j] H; cbn; auto; try lia. apply IH; lia. Qed.
Lemma rep_nth_d {A} (a d : A) n j : (j < n)%nat -> nth j (repeat a n) d = a.
Proof. revert j; induction n as [|n IH]; intros [|j] H; cbn; auto; try lia. apply IH; lia. Qed.
Definition at_hub (VC : vcmodel XN) (HH : R) : Prop := vc_hub VC = (Fin HH : XN).
Lemma fU_pts VC HH (ps : list R3) : at_hub VC HH ->
  vc_fU VC (map lift3 ps) = vc_query VC (map lift3 (map (fun p => (px p, py p + HH, pz p)) ps)).
Proof.
  intros H. unfold vc_fU. red in H. rewrite H. f_equal. rewrite !map_map. apply map_ext. intros [[x y] z]. reflexivity.
Qed.
Theorem C149_accessors : forall (VC : vcmodel XN) HH, at_hub VC HH -> forall (hs zs : list R) (z0 : R),
  vc_fHorz VC (fins hs) (fins zs) = vc_fU VC (map lift3 (map (fun p => (fst p, 0, snd p)) (grid_nodes hs zs))) /\
  vc_fVert VC (fins hs) (fins zs) = vc_fU VC (map lift3 (map (fun p => (0, fst p, snd p)) (grid_nodes hs zs))) /\
  vc_fAxial VC (fins zs) = vc_fU VC (map lift3 (map (fun z => (0, 0, z)) zs)) /\
  vc_fRadial VC true (fins hs) (Fin z0) = vc_fU VC (map lift3 (map (fun r => (r, 0, z0)) hs)) /\
  vc_fRadial VC false (fins hs) (Fin z0) = vc_fU VC (map lift3 (map (fun r => (0, r, z0)) hs)).
Proof.
  intros VC HH H hs zs z0. rewrite !(fU_pts VC HH) by exact H. unfold vc_fHorz, vc_fVert, vc_fAxial, vc_fRadial. red in H. rewrite !meshgrid_X, H. unfold fins.
  assert (P : forall a a' b b' c c' : R, a = a' -> b = b' -> c = c' -> (Fin a, Fin b, Fin c) = lift3 (a', b', c')) by (intros; subst; reflexivity).
  split; [|split; [|split; [|split]]]; f_equal; rewrite !map_map; apply map_ext; intros a; cbn [fst snd px py pz]; apply P; ring.
Qed.
(** hence a line of a plane is the line, and the two planes share the axis *)
Theorem C149_lines : forall (VC : vcmodel XN) HH, at_hub VC HH -> forall (hs zs : list R) (z0 : R),
  vc_fHorz VC (fins [0]) (fins zs) = vc_fAxial VC (fins zs) /\ vc_fVert VC (fins [0]) (fins zs) = vc_fAxial VC (fins zs) /\
  vc_fHorz VC (fins hs) (fins [z0]) = vc_fRadial VC true (fins hs) (Fin z0) /\ vc_fVert VC (fins hs) (fins [z0]) = vc_fRadial VC false (fins hs) (Fin z0).
Proof.
  intros VC HH H hs zs z0.
  assert (G1 : grid_nodes [0] zs = map (fun z => (0, z)) zs) by (induction zs as [|z zs IH]; [reflexivity|]; change (grid_nodes [0] (z :: zs)) with ((0, z) :: grid_nodes [0] zs); rewrite IH; reflexivity).
  assert (G2 : grid_nodes hs [z0] = map (fun h => (h, z0)) hs) by (unfold grid_nodes; cbn [flat_map]; apply app_nil_r).
  destruct (C149_accessors VC HH H [0] zs z0) as (A1 & A2 & A3 & _). destruct (C149_accessors VC HH H hs [z0] z0) as (B1 & B2 & _ & B4 & B5).
  rewrite A1, A2, A3, B1, B2, B4, B5, G1, G2, !map_map. repeat split; reflexivity.
Qed.

(** every model set up with a real hub height is one of these; its centre is the turbine's hub: the accessors' points are relative to it *)
Theorem C149_hub : forall minim CT HH Lam Yaw U0 mid g Mo VC, CT <= 1 ->
  setupModel (N := XN) minim (Fin CT) (Fin HH) Lam (Fin Yaw) (option_map Fin mid) (Fin U0) g Mo = Ok VC ->
  at_hub VC HH /\ forall ps : list R3, snd (vc_fU VC (map lift3 ps)) = snd (compute_u (vc_WT VC) vc_opts (map lift3 (map (fun p => add3 p (0, HH, 0)) ps))).
Proof.
  intros minim CT HH Lam Yaw U0 mid g Mo VC HC E. destruct (setup_shape minim CT HH Lam Yaw U0 mid g Mo VC HC E) as ((_ & _ & _ & _ & H) & _).
  split; [exact H|]. intros ps. rewrite (fU_pts VC HH ps H). unfold vc_query.
  replace (map (fun p => add3 p (0, HH, 0)) ps) with (map (fun p : R3 => (px p, py p + HH, pz p)) ps).
  - destruct (compute_u (vc_WT VC) vc_opts _); reflexivity.
  - apply map_ext. intros [[x y] z]. unfold add3, px, py, pz; cbn [fst snd]. repeat (f_equal; try ring).
Qed.
Example C149_nonvacuous : forall minim, exists VC, setupModel (N := XN) minim (Fin (6/10)) (Fin 10) PInf (Fin 20) (option_map Fin (Some (8/10))) (Fin 1) None "VC" = Ok VC /\ at_hub VC 10.
Proof.
  intros minim. destruct (C107_setup_succeeds minim (6/10) 10 20 1 (Some (8/10)) None "VC") as (VC & E & _); try lra. exists VC. split; [exact E|].
  apply (C149_hub minim (6/10) 10 PInf 20 1 (Some (8/10)) None "VC" VC); [lra|exact E].
Qed.

(** ** C150: the table, over any arithmetic *)
Section Table.
  Context {N : Num}.
  Notation pt := (N * N * N)%type.
  (** a point of the direction [theta] (offset [roff]) at distance [r] *)
  Definition point_of (Horizontal UseRho : bool) (theta roff r : N) (p : pt) : Prop :=
    let h := if UseRho then nmul N (nopp N r) (nsin N theta) else nadd N (nmul N r (nZ N 0)) roff in
    let z := if UseRho then nmul N r (ncos N theta) else r in
    p = if Horizontal then (h, nmul N h (nZ N 0), z) else (nmul N h (nZ N 0), h, z).
  (** the spline [f] of the plane at a point *)
  Definition spline_at (Horizontal : bool) (f : N -> N -> N) (p : pt) (w : N) : Prop :=
    let '(x, y, z) := p in w = f (if Horizontal then x else y) z.
  (** the axial velocities [ws] the model [name] gives at the points [pts] *)
  Inductive velocities (minim : (N -> N) -> N -> N -> N) (AD : addata N) (GP : N -> N -> N) (mid : option N) (Horizontal : bool) (pts : list pt) : string -> list N -> Prop :=
  | vel_cylinder name VC us : In name ["VC"; "VD"; "SS"]%string ->
      setupModel minim (ad_CT AD) (ad_HH AD) (ad_Lambda AD) (ad_Yaw AD) mid (nZ N 1) None name = Ok VC ->
      snd (vc_fU VC pts) = Ok us -> velocities minim AD GP mid Horizontal pts name (map snd us)
  | vel_data ws : Forall2 (spline_at Horizontal (ad_spline AD)) pts ws -> velocities minim AD GP mid Horizontal pts "AD" ws
  | vel_proj ws : Forall2 (spline_at Horizontal GP) pts ws -> velocities minim AD GP mid Horizontal pts "GP" ws.
  Definition in_percent (v a e : N) : Prop := e = nmul N (ndiv N (nsub N v a) a) (nZ N 100).
  (** the value matched, when MatchMidVel *)
  Definition centre_value (AD : addata N) (MatchMidVel : bool) (mid : option N) : Prop :=
    if MatchMidVel then exists u, fCenter (ad_plane AD) = Ok u /\ mid = Some u else mid = None.
  (** the row of one direction *)
  Definition row_of minim AD GP mid Horizontal UseRho rho name theta roff (row : list N) : Prop :=
    exists pts vs ws, Forall2 (point_of Horizontal UseRho theta roff) rho pts /\
      velocities minim AD GP mid Horizontal pts name vs /\ Forall2 (spline_at Horizontal (ad_spline AD)) pts ws /\
      (forall j, nth_error row j = match nth_error vs j, nth_error ws j with Some v, Some a => Some (nmul N (ndiv N (nsub N v a) a) (nZ N 100)) | _, _ => None end).

  Lemma nth_of {A} (l : list A) i d : nth i l d = match nth_error l i with Some a => a | None => d end.
  Proof. revert i; induction l as [|a l IH]; intros [|i]; cbn; auto. Qed.
  Lemma re_models_spec ans ADW it : forall Models k RE RE', re_models (N := N) ans ADW it k Models RE = Ok RE' -> (k + len Models <= len RE)%nat ->
    len RE' = len RE /\ (forall m, (m < k)%nat \/ (k + len Models <= m)%nat -> nth_error RE' m = nth_error RE m) /\
    (forall j name, nth_error Models j = Some name -> exists v, ans name = Ok v /\ nth_error RE' (k + j) = Some (upd (nth (k + j) RE []) it (re_row v ADW))).
  Proof.
    induction Models as [|a Models IH]; intros k RE RE' E L; cbn [re_models] in E.
    - injection E as <-. split; [auto|]. split; [auto|]. intros [|j] name H; discriminate H.
    - destruct (ans a) as [v|e] eqn:Ea; [|discriminate]. cbn [bind] in E. cbn [List.length] in L.
      destruct (IH (S k) _ _ E) as (A & B & C); [rewrite upd_length; lia|]. rewrite upd_length in A. split; [exact A|]. split.
      + intros m H. cbn [List.length] in H. rewrite B by lia. apply upd_other. lia.
      + intros [|j] name H; cbn [nth_error] in H.
        * injection H as <-. exists v. split; [exact Ea|]. rewrite Nat.add_0_r, B by lia. apply upd_same. lia.
        * destruct (C j name H) as (w & W1 & W2). exists w. split; [exact W1|]. replace (k + S j)%nat with (S k + j)%nat by lia. rewrite W2. do 2 f_equal.
          rewrite !nth_of, upd_other by lia. reflexivity.
  Qed.
  Lemma re_models_ok ans ADW it : forall Models k RE, (forall name, In name Models -> is_ok (ans name)) -> is_ok (re_models (N := N) ans ADW it k Models RE).
  Proof.
    induction Models as [|a Models IH]; intros k RE H; cbn [re_models]; [eexists; reflexivity|].
    destruct (H a (or_introl eq_refl)) as (v & ->). cbn [bind]. apply IH. intros; apply H; right; auto.
  Qed.
  Lemma re_models_bad ans ADW it e : forall pre name post k RE, (forall n, In n pre -> is_ok (ans n)) -> ans name = Err e ->
    re_models (N := N) ans ADW it k (pre ++ name :: post) RE = Err e.
  Proof.
    induction pre as [|a pre IH]; intros name post k RE H E; cbn [re_models app]; [rewrite E; reflexivity|].
    destruct (H a (or_introl eq_refl)) as (v & ->). cbn [bind]. apply IH; [intros; apply H; right; auto|exact E].
  Qed.
  Definition the_data (AD : addata N) Horizontal pts := spline_W (N := N) Horizontal (ad_spline AD) pts.
  Lemma re_dirs_spec minim AD GP mid Hz Ur rho Models : forall dirs it RE RE',
    re_dirs (N := N) minim AD GP mid Hz Ur rho Models it dirs RE = Ok RE' -> len RE = len Models ->
    len RE' = len Models /\
    (forall m name M, nth_error Models m = Some name -> nth_error RE m = Some M -> (it + len dirs <= len M)%nat ->
      exists M', nth_error RE' m = Some M' /\ len M' = len M /\
        (forall i, (i < it)%nat \/ (it + len dirs <= i)%nat -> nth_error M' i = nth_error M i) /\
        (forall j th ro, nth_error dirs j = Some (th, ro) -> let pts := re_points Hz Ur rho th ro in
           exists v, re_model minim AD GP mid Hz name pts (the_data AD Hz pts) = Ok v /\ nth_error M' (it + j) = Some (re_row v (the_data AD Hz pts)))).
  Proof.
    induction dirs as [|[th ro] dirs IH]; intros it RE RE' E L; cbn [re_dirs] in E.
    - injection E as <-. split; [exact L|]. intros m name M Hm HM _. exists M. split; [exact HM|]. split; [auto|]. split; [auto|]. intros [|j] a b H; discriminate H.
    - destruct (re_models _ _ it 0 Models RE) as [RE1|e] eqn:E1; [|discriminate]. cbn [bind] in E.
      destruct (re_models_spec _ _ _ _ _ _ _ E1) as (A & _ & C); [lia|].
      destruct (IH _ _ _ E) as (B1 & B2); [congruence|]. split; [exact B1|].
      intros m name M Hm HM LM. cbn [List.length] in LM. destruct (C m name Hm) as (v & V1 & V2). cbn [Nat.add] in V2. rewrite nth_of, HM in V2.
      destruct (B2 m name _ Hm V2) as (M' & M1 & M2 & M3 & M4); [rewrite upd_length; lia|]. rewrite upd_length in M2.
      exists M'. split; [exact M1|]. split; [exact M2|]. split.
      + intros i Hi. cbn [List.length] in Hi. rewrite M3 by lia. apply upd_other. lia.
      + intros [|j] a b Hj; cbn [nth_error] in Hj; cbv zeta.
        * injection Hj as <- <-. exists v. split; [exact V1|]. rewrite Nat.add_0_r, M3 by lia. apply upd_same. lia.
        * destruct (M4 j a b Hj) as (w & W1 & W2). exists w. split; [exact W1|]. rewrite <- W2. f_equal. lia.
  Qed.
  Lemma re_dirs_ok minim AD GP mid Hz Ur rho Models : forall dirs it RE,
    (forall th ro name, In (th, ro) dirs -> In name Models -> is_ok (re_model minim AD GP mid Hz name (re_points Hz Ur rho th ro) (the_data AD Hz (re_points Hz Ur rho th ro)))) ->
    is_ok (re_dirs (N := N) minim AD GP mid Hz Ur rho Models it dirs RE).
  Proof.
    induction dirs as [|[th ro] dirs IH]; intros it RE H; cbn [re_dirs]; [eexists; reflexivity|].
    destruct (re_models_ok (fun m => re_model minim AD GP mid Hz m (re_points Hz Ur rho th ro) (the_data AD Hz (re_points Hz Ur rho th ro))) (the_data AD Hz (re_points Hz Ur rho th ro)) it Models 0 RE) as (RE1 & E1).
    - intros name Hn. apply H; [left; auto|auto].
    - unfold the_data in E1. rewrite E1. cbn [bind]. apply IH. intros; apply H; [right; auto|auto].
  Qed.
  Lemma points_spec Hz Ur rho th ro : Forall2 (point_of Hz Ur th ro) rho (re_points (N := N) Hz Ur rho th ro).
  Proof. unfold re_points. induction rho as [|r rho IH]; cbn [map]; constructor; [|exact IH]. unfold point_of. destruct Hz, Ur; reflexivity. Qed.
  Lemma spline_spec Hz f pts : Forall2 (spline_at Hz f) pts (spline_W (N := N) Hz f pts).
  Proof. unfold spline_W. induction pts as [|[[x y] z] pts IH]; cbn [map]; constructor; [|exact IH]. unfold spline_at. destruct Hz; reflexivity. Qed.
  Lemma vel_spec minim AD GP mid Hz name pts v : re_model (N := N) minim AD GP mid Hz name pts (the_data AD Hz pts) = Ok v -> velocities minim AD GP mid Hz pts name v.
  Proof.
    unfold re_model.
    destruct (String.eqb_spec name "VC") as [->|n1]; [|destruct (String.eqb_spec name "VD") as [->|n2]; [|destruct (String.eqb_spec name "SS") as [->|n3]]]; cbn [orb].
    1-3: destruct (setupModel _ _ _ _ _ _ _ _ _) as [VC|e] eqn:E; [|discriminate]; cbn [bind]; destruct (snd (vc_fU VC pts)) as [us|e] eqn:Eu; [|discriminate]; cbn [bind];
      intros H; injection H as <-; replace (map _ us) with (map snd us) by (apply map_ext; intros [[x y] z]; reflexivity); apply (vel_cylinder _ _ _ _ _ _ _ VC us); auto; cbn [In]; auto.
    destruct (String.eqb_spec name "AD") as [->|n4]; [intros H; injection H as <-; apply vel_data, spline_spec|].
    destruct (String.eqb_spec name "GP") as [->|n5]; [intros H; injection H as <-; apply vel_proj, spline_spec|discriminate].
  Qed.
  Lemma row_entry : forall (v a : list N) j, nth_error (re_row v a) j = match nth_error v j, nth_error a j with Some v, Some a => Some (nmul N (ndiv N (nsub N v a) a) (nZ N 100)) | _, _ => None end.
  Proof. induction v as [|x v IH]; intros [|y a] [|j]; cbn; auto; try (destruct (nth_error v j); reflexivity). apply IH. Qed.
  (** the columns' means *)
  Definition mean_of_rows (n : nat) (M : list (list N)) (mre : list N) : Prop :=
    len mre = n /\ forall j, (j < n)%nat -> nth_error mre j = Some (np_mean (map (fun row => nth j row (nnan N)) M)).
  Lemma mean_rows_spec n M : mean_of_rows n M (mean_rows n M).
  Proof.
    unfold mean_rows. split; [rewrite map_length, seq_length; auto|]. intros j H. rewrite nth_error_map. 
    rewrite (nth_error_nth' (seq 0 n) O) by (rewrite seq_length; auto). rewrite seq_nth by auto. reflexivity.
  Qed.
  Theorem C150_table : forall minim AD GP angles Roffsets rho UseRho Models MatchMidVel U0 R Horizontal RE MRE,
    getModelsRelErr (N := N) minim (Some AD) GP angles Roffsets rho UseRho Models MatchMidVel U0 R Horizontal = Ok (RE, MRE) ->
    exists mid, centre_value AD MatchMidVel mid /\ len RE = len Models /\ len MRE = len Models /\
    forall m name, nth_error Models m = Some name -> exists M mre,
      nth_error RE m = Some M /\ nth_error MRE m = Some mre /\ len M = len angles /\ mean_of_rows (len rho) M mre /\
      (forall i theta roff, nth_error angles i = Some theta -> nth_error Roffsets i = Some roff ->
         exists row, nth_error M i = Some row /\ row_of minim AD GP mid Horizontal UseRho rho name theta roff row) /\
      (forall i, (len Roffsets <= i < len angles)%nat -> nth_error M i = Some (repeat (nZ N 0) (len rho))).
  Proof.
    intros minim AD GP angles Roffsets rho Ur Models MM U0 R Hz RE MRE. unfold getModelsRelErr.
    assert (K : forall mid, bind (re_dirs minim AD GP mid Hz Ur rho Models 0 (combine angles Roffsets) (map (fun _ => repeat (repeat (nZ N 0) (len rho)) (len angles)) Models)) (fun RE => Ok (RE, map (mean_rows (len rho)) RE)) = Ok (RE, MRE) ->
      len RE = len Models /\ len MRE = len Models /\ forall m name, nth_error Models m = Some name -> exists M mre,
      nth_error RE m = Some M /\ nth_error MRE m = Some mre /\ len M = len angles /\ mean_of_rows (len rho) M mre /\
      (forall i theta roff, nth_error angles i = Some theta -> nth_error Roffsets i = Some roff ->
         exists row, nth_error M i = Some row /\ row_of minim AD GP mid Hz Ur rho name theta roff row) /\
      (forall i, (len Roffsets <= i < len angles)%nat -> nth_error M i = Some (repeat (nZ N 0) (len rho)))).
    { intros mid E. destruct (re_dirs _ _ _ _ _ _ _ _ _ _ _) as [RE1|e] eqn:E1; [|discriminate]. cbn [bind] in E. injection E as -> <-.
      destruct (re_dirs_spec _ _ _ _ _ _ _ _ _ _ _ _ E1) as (A & B); [apply map_length|]. split; [exact A|]. split; [rewrite map_length; exact A|].
      intros m name Hm. destruct (B m name (repeat (repeat (nZ N 0) (len rho)) (len angles)) Hm) as (M & M1 & M2 & M3 & M4).
      - rewrite nth_error_map, Hm. reflexivity.
      - rewrite repeat_length, combine_length. lia.
      - rewrite repeat_length in M2. exists M, (mean_rows (len rho) M). split; [exact M1|]. split; [rewrite nth_error_map, M1; reflexivity|]. split; [exact M2|]. split; [apply mean_rows_spec|]. split.
        + intros i th ro H1 H2. destruct (M4 i th ro) as (v & V1 & V2).
          { clear - H1 H2. revert angles Roffsets H1 H2. induction i as [|i IH]; intros [|a l] [|b l'] H1 H2; cbn in *; try discriminate; [injection H1 as <-; injection H2 as <-; reflexivity|apply IH; auto]. }
          eexists. split; [exact V2|]. exists (re_points Hz Ur rho th ro), v, (the_data AD Hz (re_points Hz Ur rho th ro)).
          split; [apply points_spec|]. split; [apply vel_spec; exact V1|]. split; [apply spline_spec|]. apply row_entry.
        + intros i Hi. rewrite M3 by (rewrite combine_length; lia). rewrite (nth_error_nth' _ []) by (rewrite repeat_length; lia). f_equal. 
          apply (repeat_spec (len angles)). apply nth_In. rewrite repeat_length; lia. }
    destruct MM; [destruct (fCenter (ad_plane AD)) as [u|e] eqn:Eu; [|discriminate]|]; cbn [bind]; intros E; [exists (Some u)|exists None]; (split; [|apply K; exact E]); [exists u; auto|reflexivity].
  Qed.
  Definition supported (name : string) : Prop := In name ["VC"; "VD"; "SS"; "AD"; "GP"]%string.
  Lemma model_bad minim AD GP mid Hz name pts a : ~ supported name -> re_model (N := N) minim AD GP mid Hz name pts a = Err (EException "Model not supported").
  Proof.
    intros H. unfold supported in H. cbn [In] in H. unfold re_model.
    destruct (String.eqb_spec name "VC") as [->|n1]; [tauto|]. destruct (String.eqb_spec name "VD") as [->|n2]; [tauto|]. destruct (String.eqb_spec name "SS") as [->|n3]; [tauto|].
    destruct (String.eqb_spec name "AD") as [->|n4]; [tauto|]. destruct (String.eqb_spec name "GP") as [->|n5]; [tauto|]. reflexivity.
  Qed.
  Lemma re_models_all ans ADW it : forall Models k RE RE', re_models (N := N) ans ADW it k Models RE = Ok RE' -> forall name, In name Models -> is_ok (ans name).
  Proof.
    induction Models as [|a Models IH]; intros k RE RE' E name H; [contradiction|]. cbn [re_models] in E.
    destruct (ans a) as [v|e] eqn:Ea; [|discriminate]. cbn [bind] in E. destruct H as [->|H]; [exists v; exact Ea|eapply IH; eauto].
  Qed.
  Lemma re_dirs_all minim AD GP mid Hz Ur rho Models : forall dirs it RE RE', re_dirs (N := N) minim AD GP mid Hz Ur rho Models it dirs RE = Ok RE' ->
    forall th ro name, In (th, ro) dirs -> In name Models -> is_ok (re_model minim AD GP mid Hz name (re_points Hz Ur rho th ro) (the_data AD Hz (re_points Hz Ur rho th ro))).
  Proof.
    induction dirs as [|[a b] dirs IH]; intros it RE RE' E th ro name H Hn; [contradiction|]. cbn [re_dirs] in E.
    destruct (re_models _ _ it 0 Models RE) as [RE1|e] eqn:E1; [|discriminate]. cbn [bind] in E. destruct H as [H|H]; [injection H as <- <-; exact (re_models_all _ _ _ _ _ _ _ E1 name Hn)|eapply IH; eauto].
  Qed.
  (** a model that does not exist is an error, as soon as there is a direction *)
  Theorem C150_unsupported : forall minim AD GP a angles b Roffsets rho UseRho Models MatchMidVel U0 R Horizontal name res, In name Models -> ~ supported name ->
    getModelsRelErr (N := N) minim AD GP (a :: angles) (b :: Roffsets) rho UseRho Models MatchMidVel U0 R Horizontal <> Ok res.
  Proof.
    intros minim [AD|] GP a angles b Roffsets rho Ur Models MM U0 R Hz name res H S; unfold getModelsRelErr; [|discriminate]. intros E.
    destruct (if MM then _ else _) as [mid|e]; [|discriminate]. cbn [bind] in E. destruct (re_dirs _ _ _ _ _ _ _ _ _ _ _) as [RE1|e] eqn:E1; [|discriminate].
    destruct (re_dirs_all _ _ _ _ _ _ _ _ _ _ _ _ E1 a b name) as (v & V); [left; reflexivity|exact H|]. rewrite (model_bad minim AD GP mid Hz name _ _ S) in V. discriminate V.
  Qed.
  (** the first one is what the error is about when those before it answer *)
  Theorem C150_unsupported_first : forall minim AD GP a angles b Roffsets rho UseRho name post U0 R Horizontal, ~ supported name ->
    getModelsRelErr (N := N) minim (Some AD) GP (a :: angles) (b :: Roffsets) rho UseRho ("AD" :: "GP" :: name :: post)%string false U0 R Horizontal = Err (EException "Model not supported").
  Proof.
    intros minim AD GP a angles b Roffsets rho Ur name post U0 R Hz S. unfold getModelsRelErr. cbn [bind combine re_dirs].
    match goal with |- context [re_models ?ans ?d _ _ _ ?re] => pose proof (re_models_bad ans d 0 (EException "Model not supported") ["AD"; "GP"]%string name post 0 re) as K end.
    cbn [app] in K. rewrite K; [reflexivity| |apply model_bad; exact S].
    intros n [<-|[<-|[]]]; eexists; reflexivity.
  Qed.
  (** without a direction no model is looked at: the table is full of zeros *)
  Theorem C150_no_direction : forall minim AD GP angles rho UseRho Models U0 R Horizontal,
    getModelsRelErr (N := N) minim (Some AD) GP angles [] rho UseRho Models false U0 R Horizontal =
    Ok (map (fun _ => repeat (repeat (nZ N 0) (len rho)) (len angles)) Models, map (fun _ => mean_rows (len rho) (repeat (repeat (nZ N 0) (len rho)) (len angles))) Models).
  Proof. intros. unfold getModelsRelErr. cbn [bind]. replace (combine angles []) with (@nil (N * N)) by (destruct angles; reflexivity). cbn [re_dirs bind]. rewrite map_map. reflexivity. Qed.
  Theorem C150_missing_case : forall minim GP angles Roffsets rho UseRho Models MatchMidVel U0 R Horizontal,
    getModelsRelErr (N := N) minim None GP angles Roffsets rho UseRho Models MatchMidVel U0 R Horizontal = Err EAttributeError.
  Proof. reflexivity. Qed.
  (** each model's errors are those of a call with this model alone *)
  Theorem C150_independent : forall minim AD GP angles Roffsets rho UseRho Models MatchMidVel U0 R U0' R' Horizontal RE MRE m name,
    getModelsRelErr (N := N) minim (Some AD) GP angles Roffsets rho UseRho Models MatchMidVel U0 R Horizontal = Ok (RE, MRE) ->
    nth_error Models m = Some name -> exists M mre, nth_error RE m = Some M /\ nth_error MRE m = Some mre /\
      getModelsRelErr (N := N) minim (Some AD) GP angles Roffsets rho UseRho [name] MatchMidVel U0' R' Horizontal = Ok ([M], [mre]).
  Proof.
    intros minim AD GP angles Roffsets rho Ur Models MM U0 R U0' R' Hz RE MRE m name E Hm. unfold getModelsRelErr in *.
    destruct (if MM then _ else _) as [mid|e]; [|discriminate]. cbn [bind] in *.
    set (Z := repeat (repeat (nZ N 0) (len rho)) (len angles)) in *. set (dirs := combine angles Roffsets) in *.
    destruct (re_dirs minim AD GP mid Hz Ur rho Models 0 dirs _) as [RE1|e] eqn:E1; [|discriminate]. cbn [bind] in E. injection E as -> <-.
    assert (LD : (0 + len dirs <= len Z)%nat) by (unfold dirs, Z; rewrite repeat_length, combine_length; lia).
    destruct (re_dirs_spec _ _ _ _ _ _ _ _ _ _ _ _ E1) as (A & B); [apply map_length|].
    destruct (B m name Z Hm) as (M & M1 & M2 & M3 & M4); [rewrite nth_error_map, Hm; reflexivity|exact LD|].
    destruct (re_dirs_ok minim AD GP mid Hz Ur rho [name] dirs 0 [Z]) as (RE2 & E2).
    { intros th ro n Hd [<-|[]]. exact (re_dirs_all _ _ _ _ _ _ _ _ _ _ _ _ E1 th ro name Hd (nth_error_In _ _ Hm)). }
    cbn [map]. rewrite E2. cbn [bind].
    destruct (re_dirs_spec _ _ _ _ _ _ _ _ _ _ _ _ E2) as (A' & B'); [reflexivity|].
    destruct (B' 0%nat name Z eq_refl eq_refl LD) as (M' & N1 & N2 & N3 & N4).
    assert (EM : M = M').
    { apply nth_error_ext. intros i. destruct (nth_error dirs i) as [[th ro]|] eqn:Hi.
      - destruct (M4 i th ro Hi) as (v & V1 & V2). destruct (N4 i th ro Hi) as (w & W1 & W2). cbv zeta in V1, W1. rewrite V1 in W1. injection W1 as <-. cbn [Nat.add] in V2, W2. congruence.
      - apply nth_error_None in Hi. rewrite M3, N3 by lia. reflexivity. }
    subst M'. exists M, (mean_rows (len rho) M). split; [exact M1|]. split; [rewrite nth_error_map, M1; reflexivity|].
    destruct RE2 as [|x [|y RE2]]; try discriminate A'. cbn in N1. injection N1 as ->. reflexivity.
  Qed.
End Table.

(** ** C150 over the reals *)
Lemma percent_zero (a : R) : a <> 0 -> nmul XN (ndiv XN (nsub XN (Fin a) (Fin a)) (Fin a)) (nZ XN 100) = Fin 0.
Proof. intros H. xn. rewrite xdiv_fin by auto. cbn. f_equal. field. exact H. Qed.
(** the signed error, in percent: v = a(1+e/100) *)
Lemma percent_fin (v a : R) : a <> 0 -> exists e, nmul XN (ndiv XN (nsub XN (Fin v) (Fin a)) (Fin a)) (nZ XN 100) = Fin e /\ v = a * (1 + e / 100).
Proof. intros H. exists ((v - a) / a * 100). split; [xn; rewrite xdiv_fin by auto; reflexivity|field; exact H]. Qed.
Definition h_of (Ur : bool) (th ro r : R) : R := if Ur then - r * sin th else ro.
Definition z_of (Ur : bool) (th r : R) : R := if Ur then r * cos th else r.
Lemma point_fin Hz Ur th ro r p : point_of (N := XN) Hz Ur (Fin th) (Fin ro) (Fin r) p ->
  p = lift3 (if Hz then (h_of Ur th ro r, 0, z_of Ur th r) else (0, h_of Ur th ro r, z_of Ur th r)).
Proof.
  unfold point_of. cbv zeta.
  assert (Eh : (if Ur then nmul XN (nopp XN (Fin r)) (nsin XN (Fin th)) else nadd XN (nmul XN (Fin r) (nZ XN 0)) (Fin ro)) = Fin (h_of Ur th ro r)).
  { destruct Ur; unfold h_of; xn; f_equal; ring. }
  assert (Ez : (if Ur then nmul XN (Fin r) (ncos XN (Fin th)) else Fin r) = Fin (z_of Ur th r)) by (destruct Ur; reflexivity).
  nT. rewrite Eh, Ez, zero_fin. intros ->. destruct Hz; reflexivity.
Qed.
Lemma points_fin Hz Ur th ro rho pts : Forall2 (point_of (N := XN) Hz Ur (Fin th) (Fin ro)) (fins rho) pts ->
  pts = map lift3 (map (fun r => if Hz then (h_of Ur th ro r, 0, z_of Ur th r) else (0, h_of Ur th ro r, z_of Ur th r)) rho).
Proof.
  unfold fins. revert pts. induction rho as [|r rho IH]; intros pts H; inversion H; subst; [reflexivity|]. cbn [map]. f_equal; [now apply point_fin|now apply IH].
Qed.
(** the velocity at the rotor centre, asked for through fU among any points *)
Lemma centre_fU VC CT HH Yaw U0 G : shape VC CT HH Yaw U0 "VC" -> t_gt (vc_WT VC) = Some [Fin G : XN] -> clear_case CT HH Yaw ->
  forall (ps : list R3) i, nth_error ps i = Some (0, 0, 0) ->
  exists us w, snd (vc_fU VC (map lift3 ps)) = Ok us /\ nth_error us i = Some (lift3 w) /\ pz w = U0 * cos (deg Yaw) + G / 2.
Proof.
  intros (W & EC & EG & EM & EH) Eg HG ps i Hi. rewrite (fU_pts VC HH ps EH). unfold vc_query.
  set (qs := map (fun p => (px p, py p + HH, pz p)) ps).
  assert (Hp : nth_error qs i = Some (0, HH, 0)) by (unfold qs; rewrite nth_error_map, Hi; cbn; do 3 f_equal; ring).
  assert (ES : rotate (0, 1, 0) 0 (0, 0, 1) = (0, 0, 1)) by apply rotate_0.
  assert (EI : forall w : R3, inner w (0, 0, 1) = pz w) by (intros w; unfold inner, px, py, pz; cbn [fst snd]; ring).
  assert (K : exists us w, snd (compute_u (vc_WT VC) vc_opts (map lift3 qs)) = Ok us /\ nth_error us i = Some (lift3 w) /\ pz w = U0 * cos (deg Yaw) + G / 2).
  2:{ destruct (compute_u (vc_WT VC) vc_opts _) as [t u]. exact K. }
  destruct HG as [(HG & Hc)|(HY & HG)].
  - assert (GF : ground_on (vc_WT VC) vc_opts = false) by (unfold ground_on; cbn [vc_opts o_ground]; rewrite EG; apply Rltb_false; auto).
    destruct (rotor_centre_WF _ _ _ _ _ _ _ vc_opts _ (skew_of CT Yaw) _ i W Rlt_0_1 vc_tang_only EM Eg (or_introl EC) Hc GF Hp) as (us & w & E1 & E2 & E3 & _).
    exists us, w. split; auto. split; auto. cbn [vc_opts o_only_ind] in E3. rewrite ES, !EI in E3. rewrite E3. unfold pz; cbn [snd]. field.
  - assert (SK : skew_of CT Yaw = 0) by (unfold skew_of, deg; rewrite HY, Rmult_0_l; unfold Rdiv; rewrite !Rmult_0_l; reflexivity).
    assert (L0 : length3 (sub3 (0, HH, 0) (0, HH, 0)) = 0).
    { unfold length3, inner, sub3, px, py, pz; cbn [fst snd]. rewrite !Rminus_eq_0. replace (0 * 0 + 0 * 0 + 0 * 0) with 0 by ring. apply sqrt_0. }
    assert (L1 : length3 (sub3 (0, HH, 0) (sub3 (0, HH, 0) (scal3 (2 * inner (0, HH, 0) (0, 1, 0)) (0, 1, 0)))) = 2 * HH).
    { unfold length3, inner, sub3, scal3, px, py, pz; cbn [fst snd]. match goal with |- sqrt ?a = _ => replace a with (2 * HH * (2 * HH)) by ring end. apply sqrt_square. lra. }
    assert (C0 : Rabs (skew_of CT Yaw) <= 1 / 10000000) by (rewrite SK, Rabs_R0; lra).
    pose proof (rotor_plane_WF _ _ _ _ _ _ _ vc_opts _ (skew_of CT Yaw) _ i _ W Rlt_0_1 vc_tang_only EM Eg (or_introl EC) C0 Hp) as RP. cbv zeta in RP.
    rewrite L0, L1, ES in RP. destruct RP as (us & w & E1 & E2 & E3).
    { rewrite EI. unfold sub3, pz; cbn [snd]. ring. }
    { unfold off_rim. rewrite Rabs_left by lra. lra. }
    { intros _. unfold off_rim. rewrite Rabs_right by lra. lra. }
    exists us, w. split; auto. split; auto. cbn [vc_opts o_only_ind] in E3. rewrite !EI in E3. unfold disk in E3.
    replace (Rltb 0 1) with true in E3 by (symmetry; apply Rltb_true; lra). replace (Rltb (2 * HH) 1) with false in E3 by (symmetry; apply Rltb_false; lra).
    rewrite E3. unfold pz; cbn [snd]. destruct (ground_on _ _); field.
Qed.
(** the case of the data, with real numbers *)
Definition case_of (AD : addata XN) (CT HH Yaw : R) : Prop := ad_CT AD = (Fin CT : XN) /\ ad_HH AD = (Fin HH : XN) /\ ad_Yaw AD = (Fin Yaw : XN).
(** with MatchMidVel the cylinder's error vanishes at the rotor centre, in every direction, when the spline passes through the centre value *)
Theorem C150_matched_centre : forall minim (AD : addata XN) GP (angles Roffsets rho : list R) Models U0 R Horizontal CT HH Yaw u RE MRE m i j,
  getModelsRelErr (N := XN) minim (Some AD) GP (fins angles) (fins Roffsets) (fins rho) true Models true U0 R Horizontal = Ok (RE, MRE) ->
  case_of AD CT HH Yaw -> CT <= 1 -> clear_case CT HH Yaw -> fCenter (ad_plane AD) = Ok (Fin u : XN) -> u <> 0 ->
  ad_spline AD (Fin 0) (Fin 0) = (Fin u : XN) ->
  nth_error Models m = Some "VC"%string -> (i < len angles)%nat -> (i < len Roffsets)%nat -> nth_error rho j = Some 0 ->
  exists M row, nth_error RE m = Some M /\ nth_error M i = Some row /\ nth_error row j = Some (Fin 0 : XN).
Proof.
  intros minim AD GP angles Roffsets rho Models U0 R Hz CT HH Yaw u RE MRE m i j E (E1 & E2 & E3) HC HG EC Hu ES Hm Hi1 Hi2 Hj.
  destruct (C150_table _ _ _ _ _ _ _ _ _ _ _ _ _ _ E) as (mid & (u' & EC' & ->) & _ & _ & T). rewrite EC in EC'. injection EC' as <-.
  destruct (T m _ Hm) as (M & mre & T1 & _ & _ & _ & T2 & _).
  destruct (nth_error angles i) as [th|] eqn:H1; [|apply nth_error_None in H1; lia]. destruct (nth_error Roffsets i) as [ro|] eqn:H2; [|apply nth_error_None in H2; lia].
  destruct (T2 i (Fin th) (Fin ro)) as (row & R1 & pts & vs & ws & P1 & P2 & P3 & P4); [unfold fins; rewrite nth_error_map, H1; reflexivity|unfold fins; rewrite nth_error_map, H2; reflexivity|].
  exists M, row. split; [exact T1|]. split; [exact R1|]. rewrite P4. clear T T1 T2 R1 P4 E.
  apply points_fin in P1. set (ps := map _ rho) in P1.
  assert (Hp : nth_error ps j = Some (0, 0, 0)).
  { unfold ps. rewrite nth_error_map, Hj. cbn [option_map]. unfold h_of, z_of. f_equal. destruct Hz; repeat (f_equal; try ring). }
  assert (Hw : nth_error ws j = Some (Fin u)).
  { destruct (Forall2_nth _ pts ws j (lift3 (0, 0, 0)) P3) as (w & W1 & W2); [rewrite P1; exact (map_nth_error lift3 _ _ Hp)|]. rewrite W1. f_equal. cbn in W2. rewrite W2. destruct Hz; exact ES. }
  inversion P2; subst. rewrite E1, E2, E3 in *.
  match goal with H : setupModel _ _ _ _ _ _ _ _ _ = Ok ?VC |- _ => destruct (setup_shape minim CT HH (ad_Lambda AD) Yaw 1 (Some u) None "VC" VC HC H) as (S & Eg);
    destruct (centre_fU VC CT HH Yaw 1 _ S Eg HG ps j Hp) as (us' & w & K1 & K2 & K3) end.
  match goal with H : snd (vc_fU _ _) = Ok us |- _ => rewrite K1 in H; injection H as -> end.
  rewrite nth_error_map, K2, Hw. cbn [option_map]. f_equal. replace (snd (lift3 w)) with (Fin u : XN); [apply percent_zero; exact Hu|].
  change (snd (lift3 w)) with (Fin (pz w) : XN). rewrite K3. f_equal. unfold matched. field.
Qed.
(** the error of the data against itself is zero wherever the data is a nonzero number *)
Lemma lsum_zero {A} (l : list A) : lsum (map (fun _ => 0) l) = 0.
Proof. induction l as [|x l IH]; [reflexivity|]. cbn [map]. change (lsum (0 :: ?m)) with (0 + lsum m). rewrite IH. ring. Qed.
Lemma zeros_map (l : list XN) : Forall (fun x => x = Fin 0) l -> l = map Fin (map (fun _ => 0) l).
Proof. induction 1 as [|x l E F IH]; [reflexivity|]. cbn [map]. rewrite E. f_equal. exact IH. Qed.
Lemma mean_zero (l : list XN) : l <> [] -> Forall (fun x => x = Fin 0) l -> np_mean l = Fin 0.
Proof.
  intros H F. rewrite (zeros_map l F), np_mean_fin by (destruct l; [contradiction|discriminate]).
  rewrite lsum_zero. f_equal. unfold Rdiv. ring.
Qed.
(** the mean of numbers *)
Theorem C150_mean : forall n (M : list (list R)) mre, M <> [] -> Forall (fun row => len row = n) M -> mean_of_rows (N := XN) n (map fins M) mre ->
  forall j, (j < n)%nat -> nth_error mre j = Some (Fin (lsum (map (fun row => nth j row 0) M) / INR (len M)) : XN).
Proof.
  intros n M mre HM HF (_ & H) j Hj. rewrite (H j Hj). f_equal.
  replace (map (fun row => nth j row (nnan XN)) (map fins M)) with (map Fin (map (fun row => nth j row 0) M) : list XN).
  - rewrite np_mean_fin by (destruct M; [contradiction|discriminate]). now rewrite map_length.
  - rewrite !map_map. apply map_ext_in. intros row Hr. rewrite Forall_forall in HF. specialize (HF row Hr).
    unfold fins. rewrite (nth_indep (map Fin row) (nnan XN) (Fin 0)) by (rewrite map_length; lia). symmetry. exact (map_nth Fin row 0 j).
Qed.
Theorem C150_data_exact : forall minim (AD : addata XN) GP (angles Roffsets rho : list R) UseRho Models MatchMidVel U0 R Horizontal RE MRE m,
  getModelsRelErr (N := XN) minim (Some AD) GP (fins angles) (fins Roffsets) (fins rho) UseRho Models MatchMidVel U0 R Horizontal = Ok (RE, MRE) ->
  (forall h z, exists a, ad_spline AD (Fin h) (Fin z) = (Fin a : XN) /\ a <> 0) -> nth_error Models m = Some "AD"%string -> angles <> [] ->
  nth_error RE m = Some (repeat (repeat (Fin 0 : XN) (len rho)) (len angles)) /\ nth_error MRE m = Some (repeat (Fin 0 : XN) (len rho)).
Proof.
  intros minim AD GP angles Roffsets rho Ur Models MM U0 R Hz RE MRE m E HA Hm HN.
  destruct (C150_table _ _ _ _ _ _ _ _ _ _ _ _ _ _ E) as (mid & _ & _ & _ & T). destruct (T m _ Hm) as (M & mre & T1 & T2 & T3 & (T4 & T5) & T6 & T7).
  assert (LR : forall i row, nth_error M i = Some row -> row = repeat (Fin 0 : XN) (len rho)).
  { intros i row Hi. assert (Li : (i < len angles)%nat) by (rewrite fins_len in T3; rewrite <- T3; apply nth_error_Some; congruence).
    destruct (Nat.lt_ge_cases i (len Roffsets)) as [L|L].
    - destruct (nth_error angles i) as [th|] eqn:H1; [|apply nth_error_None in H1; lia]. destruct (nth_error Roffsets i) as [ro|] eqn:H2; [|apply nth_error_None in H2; lia].
      destruct (T6 i (Fin th) (Fin ro)) as (row' & R1 & pts & vs & ws & P1 & P2 & P3 & P4); [exact (map_nth_error Fin _ _ H1)|exact (map_nth_error Fin _ _ H2)|].
      rewrite R1 in Hi. injection Hi as ->. pose proof (F2_len _ _ _ P1) as LP. rewrite fins_len in LP. apply points_fin in P1.
      assert (vs = ws) as ->.
      { inversion P2; subst; [cbn [In] in *; exfalso; repeat match goal with H : _ \/ _ |- _ => destruct H as [H|H]; [discriminate H|] end; auto|].
        clear - P3 H. revert vs P3 H. generalize (map lift3 (map (fun r => if Hz then (h_of Ur th ro r, 0, z_of Ur th r) else (0, h_of Ur th ro r, z_of Ur th r)) rho)).
        intros l. induction ws as [|w ws IH] in l |- *; intros vs A B; inversion A; subst; inversion B; subst; auto. f_equal; [|eapply IH; eauto].
        match goal with H : spline_at _ _ ?x _ |- _ => destruct x as [[? ?] ?] end. unfold spline_at in *. congruence. }
      assert (LW : len ws = len rho).
      { pose proof (F2_len _ _ _ P3) as L3. etransitivity; [symmetry; exact L3|symmetry; exact LP]. }
      apply nth_error_ext. intros j. rewrite P4. destruct (nth_error ws j) as [w|] eqn:Hw.
      + assert (Lj : (j < len rho)%nat) by (rewrite <- LW; apply nth_error_Some; congruence).
        destruct (nth_error pts j) as [p|] eqn:Hp; [|apply nth_error_None in Hp; pose proof (F2_len _ _ _ P3); lia].
        destruct (Forall2_nth _ pts ws j p P3 Hp) as (w' & W1 & W2). rewrite Hw in W1. injection W1 as <-.
        rewrite P1 in Hp. rewrite !nth_error_map in Hp. destruct (nth_error rho j) as [r|]; [|discriminate]. cbn [option_map] in Hp. injection Hp as <-.
        assert (exists a, w = Fin a /\ a <> 0) as (a & -> & Ha).
        { destruct (HA (h_of Ur th ro r) (z_of Ur th r)) as (a & A1 & A2). exists a. split; [|exact A2]. rewrite <- A1. destruct Hz; exact W2. }
        rewrite percent_zero by exact Ha. symmetry. exact (rep_nth (Fin 0) _ _ Lj).
      + symmetry. apply nth_error_None. rewrite repeat_length. apply nth_error_None in Hw. lia.
    - specialize (T7 i). rewrite !fins_len in T7. rewrite (T7 (conj L Li)) in Hi. injection Hi as <-. reflexivity. }
  assert (EM : M = repeat (repeat (Fin 0 : XN) (len rho)) (len angles)).
  { rewrite fins_len in T3. rewrite <- T3. clear - LR. induction M as [|row M IH]; [reflexivity|]. cbn [repeat List.length]. f_equal; [exact (LR O row eq_refl)|apply IH; intros i; exact (LR (S i))]. }
  split; [rewrite T1; f_equal; exact EM|]. rewrite T2. f_equal. apply nth_error_ext. intros j. rewrite fins_len in T4, T5.
  destruct (Nat.lt_ge_cases j (len rho)) as [L|L].
  - rewrite (T5 j L). etransitivity; [|symmetry; exact (rep_nth (Fin 0) _ _ L)]. f_equal.
    apply mean_zero; [rewrite EM; destruct angles; [contradiction|discriminate]|]. apply Forall_forall. intros x Hx. apply in_map_iff in Hx. destruct Hx as (row & <- & Hr). rewrite EM in Hr. apply repeat_spec in Hr. subst row.
    exact (rep_nth_d (Fin 0) _ _ _ L).
  - transitivity (@None XN); [apply nth_error_None; lia|symmetry; apply nth_error_None; rewrite repeat_length; exact L].
Qed.
(** an example: data equal to [a] everywhere *)
Definition flat_data (CT HH Yaw a : R) : addata XN :=
  @Build_addata XN (Fin CT) (Fin HH) PInf (Fin Yaw) (plane [0] [0] (fun _ _ => a)) (fun _ _ => Fin a).
Definition flat (a : R) : XN -> XN -> XN := fun _ _ => Fin a.
(** with fewer offsets than directions the missing rows are zeros and count in the mean: a model that is everywhere 100% wrong is reported as 50% *)
Theorem C150_refuted : forall minim UseRho U0 R, let call offsets :=
    getModelsRelErr (N := XN) minim (Some (flat_data 0 10 0 1)) (flat 2) (fins [0; 1]) offsets (fins [1]) UseRho ["GP"%string] false U0 R true in
  call (fins [0; 0]) = Ok ([[[Fin 100]; [Fin 100]]], [[Fin 100]]) /\
  call (fins [0]) = Ok ([[[Fin 100]; [Fin 0]]], [[Fin 50]]).
Proof.
  intros minim Ur U0 R.
  assert (E : nmul XN (ndiv XN (nsub XN (Fin 2) (Fin 1)) (Fin 1)) (nZ XN 100) = Fin 100) by (xn; rewrite xdiv_fin by lra; cbn; f_equal; field).
  assert (Q : forall th ro, let ps := re_points (N := XN) true Ur (fins [1]) th ro in re_row (N := XN) (spline_W true (flat 2) ps) (spline_W true (flat 1) ps) = [Fin 100]).
  { intros th ro. unfold re_points, fins. cbn [map]. match goal with |- context [let '(z, x) := ?c in _] => destruct c as [z x] end. cbv zeta. unfold spline_W, re_row, flat. cbn [map map2]. nT. rewrite E. reflexivity. }
  assert (M1 : mean_rows (N := XN) 1 [[Fin 100]; [Fin 0]] = [Fin 50]).
  { unfold mean_rows. cbn [seq map nth]. f_equal. transitivity (np_mean (map Fin [100; 0] : list XN)); [reflexivity|]. rewrite np_mean_fin by discriminate. cbn. f_equal. field. }
  assert (M2 : mean_rows (N := XN) 1 [[Fin 100]; [Fin 100]] = [Fin 100]).
  { unfold mean_rows. cbn [seq map nth]. f_equal. transitivity (np_mean (map Fin [100; 100] : list XN)); [reflexivity|]. rewrite np_mean_fin by discriminate. cbn. f_equal. field. }
  assert (S1 : forall th ro it RE, re_models (fun m => re_model minim (flat_data 0 10 0 1) (flat 2) None true m (re_points true Ur (fins [1]) th ro) (spline_W true (flat 1) (re_points true Ur (fins [1]) th ro)))
     (spline_W true (flat 1) (re_points true Ur (fins [1]) th ro)) it 0 ["GP"%string] RE = Ok (upd RE 0 (upd (nth 0 RE []) it [Fin 100] : list (list XN)))).
  { intros th ro it RE. cbn [re_models]. unfold re_model at 1. cbn [String.eqb Ascii.eqb Bool.eqb orb bind]. rewrite Q. reflexivity. }
  cbv zeta. unfold getModelsRelErr. cbn [bind]. split; unfold fins at 2 3; cbn [map combine re_dirs]; cbn [flat_data ad_spline]; rewrite S1; cbn [bind re_dirs];
    cbn [flat_data ad_spline]; rewrite ?S1; cbn [bind re_dirs].
  - etransitivity; [|exact (f_equal (fun v => Ok ([[[Fin 100]; [Fin 100]]] : list (list (list XN)), [v])) M2)]. reflexivity.
  - etransitivity; [|exact (f_equal (fun v => Ok ([[[Fin 100]; [Fin 0]]] : list (list (list XN)), [v])) M1)]. reflexivity.
Qed.
(** the hypotheses are met: e.g. CT=0.6, yaw 20 degrees, hub at 10 radii, three models, two directions through the rotor centre *)
Example C150_nonvacuous : forall minim GP U0 R, let AD := flat_data (6/10) 10 20 (8/10) in
  case_of AD (6/10) 10 20 /\ clear_case (6/10) 10 20 /\ fCenter (ad_plane AD) = Ok (Fin (8/10) : XN) /\ ad_spline AD (Fin 0) (Fin 0) = (Fin (8/10) : XN) /\
  exists RE MRE, getModelsRelErr (N := XN) minim (Some AD) GP (fins [0; 1]) (fins [0; 0]) (fins [0]) true ["AD"; "VC"; "GP"]%string true U0 R true = Ok (RE, MRE).
Proof.
  intros minim GP U0 R AD. destruct (C107_case minim) as (_ & CC & _). split; [repeat split|]. split; [exact CC|].
  assert (EC : fCenter (ad_plane AD) = Ok (Fin (8/10) : XN)).
  { destruct (C109_centre_and_lines [0] [0] (fun _ _ => 8/10)) as (ih & iz & _ & _ & E & _); try discriminate; [| |exact E].
    all: intros [|i] [|j] a b H1 H2 L; try lia; try (destruct i; discriminate); destruct j; discriminate. }
  split; [exact EC|]. split; [reflexivity|]. unfold getModelsRelErr. rewrite EC. cbn [bind].
  match goal with |- exists RE MRE, bind ?e _ = _ => assert (K : is_ok e); [|destruct K as (RE & ->); cbn [bind]; eexists; eexists; reflexivity] end.
  apply re_dirs_ok. intros th ro name Hd Hn. unfold re_model.
  assert (exists th' ro', th = Fin th' /\ ro = Fin ro') as (th' & ro' & -> & ->).
  { unfold fins in Hd. cbn [map combine In] in Hd. destruct Hd as [Hd|[Hd|[]]]; injection Hd as <- <-; eexists; eexists; split; reflexivity. }
  destruct Hn as [<-|[<-|[<-|[]]]]; cbn [String.eqb Ascii.eqb Bool.eqb orb]; try (eexists; reflexivity).
  destruct (C107_setup_succeeds minim (6/10) 10 20 1 (Some (8/10)) None "VC") as (VC & E & _); try lra.
  cbn [option_map] in E. unfold AD; cbn [flat_data ad_CT ad_HH ad_Lambda ad_Yaw]. change (nZ XN 1) with (Fin 1 : XN). nT. rewrite E. cbn [bind].
  destruct (setup_shape minim (6/10) 10 PInf 20 1 (Some (8/10)) None "VC" VC) as (S & Eg); [lra|exact E|].
  pose proof (points_spec (N := XN) true true (fins [0]) (Fin th') (Fin ro')) as PS. apply points_fin in PS. rewrite PS.
  match goal with |- context [vc_fU VC (map lift3 ?ps)] => destruct (centre_fU VC _ _ _ _ _ S Eg CC ps 0) as (us & w & K1 & _) end.
  - cbn [map nth_error]. unfold h_of, z_of. f_equal. repeat (f_equal; try ring).
  - match type of K1 with ?a = _ => match goal with |- is_ok (bind ?b _) => change b with a end end. rewrite K1. cbn [bind]. eexists; reflexivity.
Qed.
