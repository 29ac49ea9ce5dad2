(** * C108: the wind-farm helpers of the article scripts *)
From Coquelicot Require Import Coquelicot.
From Coq Require Import ZArith List Bool Arith Lia String Reals Lra Psatz.
From Verif Require Import Num NumR NumX Spec M_Elliptic M_Line M_Doublet M_Misc M_Cylinder M_Skewed
  M_Solver M_Turbine M_Farm M_Helpers L_List L_Calc L_X L_Turbine L_State L_Farm L_Geom L_Angles L_TurbineX L_TurbineY L_Multi L_Built L_Layout P_Turbine P_Line P_Skewed P_Cylinder2 P_Grid P_Farm P_Centre P_Helpers.
Import ListNotations.
Local Notation len := List.length.
Local Open Scope R_scope.

(** the intensity a turbine of radius 1/2 in a unit wind gets from a thrust coefficient: momentum theory by default (see C106), else the callback *)
Definition intensity (f : option (list XN -> result (list XN))) (CT g : R) : Prop :=
  match f with
  | None => 0 <= CT <= 1 /\ g = -2 * ind_of CT (eps_conv CT 1 800 (1 / 2))
  | Some f => f [Fin CT : XN] = Ok [Fin g : XN]
  end.
(** a turbine of the farm: radius 1/2, shaft and unit wind along x, not yawed, no prescribed skew *)
Record farm_turbine minim (t : turbine XN) (pos : R3) (Ground : bool) (Model : string) (g : R) : Prop := {
  ft_built : built minim t (1, 0, 0) (0, 0, 1) pos (1, 0, 0) (1 / 2) 0;
  ft_gt : t_gt t = Some [Fin g : XN];
  ft_ground : t_ground t = Ground;
  ft_model : t_model t = Model;
  ft_chi : t_chi t = None }.
Lemma frame_xz : frame (1, 0, 0) (0, 0, 1).
Proof. repeat split; unfold unit3, perp, inner, px, py, pz; cbn [fst snd]; ring. Qed.
Lemma length_x : length3 (1, 0, 0) = 1.
Proof. unfold length3, inner, px, py, pz; cbn [fst snd]. transitivity (sqrt 1); [f_equal; ring|apply sqrt_1]. Qed.
Lemma farm_set_ok minim f pos Ground Model CT g : intensity f CT g ->
  exists t, farm_set (N := XN) minim f (farm_wt (N := XN) (lift3 pos) Ground Model) (Fin CT) = (t, Ok tt) /\ farm_turbine minim t pos Ground Model g.
Proof.
  intros HI. unfold farm_set. set (t0 := update_wind _ _).
  assert (B0 : built minim t0 (1, 0, 0) (0, 0, 1) pos (1, 0, 0) (1 / 2) 0).
  { apply (b_wind minim _ (1, 0, 0) (0, 0, 1) pos (0, 0, 10) (1/2) 0 (1, 0, 0)). apply (b_yaw minim _ (1, 0, 0) (0, 0, 1) pos (0, 0, 10) (1/2) 0 0).
    pose proof (b_new minim (1, 0, 0) (0, 0, 1) pos (0, 0, 10) (5 / 10) None (Some PInf) "" Ground Model frame_xz) as B. replace (5 / 10) with (1 / 2) in B at 2 by field. exact B. }
  assert (W0 := built_WF _ _ _ _ _ _ _ _ B0).
  destruct f as [f|].
  - cbn [intensity] in HI. destruct (update_loading minim None (Some [Fin CT : XN]) None None (Some 1%nat) (Some f) t0) as [t' r] eqn:E.
    assert (B1 : built minim t' (1, 0, 0) (0, 0, 1) pos (1, 0, 0) (1 / 2) 0) by (replace t' with (fst (t', r)) by reflexivity; rewrite <- E; apply b_load; auto).
    unfold update_loading in E. cbn [load_interp option_map] in E. unfold mbind, mlift, massign in E.
    assert (M : np_mean [Fin CT : XN] = Fin CT). { transitivity (Fin (lsum [CT] / INR (len [CT]))); [exact (np_mean_fin [CT] ltac:(discriminate))|]. f_equal. cbn. field. }
    rewrite M, HI in E. change (t_Lambda t0) with (Some PInf) in E. cbv iota beta in E. injection E as E1 E2. exists t'. split; [rewrite <- E2; reflexivity|]. split; auto; subst t'; reflexivity.
  - destruct HI as (HC & ->). destruct (C106_infinite_tsr CT 1 (1/2)) as (A & B & C); try lra.
    assert (M : lsum [CT] / INR (len [CT]) = CT) by (cbn; field).
    destruct (load_one minim t0 _ _ _ _ _ _ None [CT] None PInf 800 W0) as (t' & E & G & Ec & Eg & Em); try rewrite M; try rewrite length_x; auto; try lra; try discriminate.
    { left; auto. }
    exists t'. split; [exact E|]. split.
    + replace t' with (fst (t', @Ok unit tt)) by reflexivity. rewrite <- E. apply b_load; auto.
    + rewrite G, M, length_x. do 3 f_equal. ring.
    + rewrite Eg; reflexivity. + rewrite Em; reflexivity. + rewrite Ec; reflexivity.
Qed.
Lemma farm_load_ok minim f Ground Model (l : list (R3 * R * R)) :
  (forall x, In x l -> intensity f (snd (fst x)) (snd x)) ->
  exists ts, farm_load (N := XN) minim f (map (fun x => farm_wt (N := XN) (lift3 (fst (fst x))) Ground Model) l) (map (fun x => Fin (snd (fst x)) : XN) l) = Ok ts /\
    Forall2 (fun x t => farm_turbine minim t (fst (fst x)) Ground Model (snd x)) l ts.
Proof.
  induction l as [|[[p c] g] l IH]; intros H; [exists []; split; [reflexivity|constructor]|]. cbn [map farm_load fst snd].
  destruct (farm_set_ok minim f p Ground Model c g (H (p, c, g) (or_introl eq_refl))) as (t & E & F). rewrite E. cbn [bind].
  destruct IH as (ts & E' & F'); [intros x Hx; apply H; right; auto|]. rewrite E'. exists (t :: ts). split; [reflexivity|]. constructor; auto.
Qed.
Lemma Forall2_nth {A B} (P : A -> B -> Prop) l m i a : Forall2 P l m -> nth_error l i = Some a -> exists b, nth_error m i = Some b /\ P a b.
Proof. intros H. revert i. induction H as [|x y l m Hxy H IH]; intros [|i] E; try discriminate; [injection E as <-; exists y; auto|]. apply IH; auto. Qed.

Lemma Forall2_len {A B} (P : A -> B -> Prop) l m : Forall2 P l m -> len l = len m.
Proof. induction 1; cbn [List.length]; auto. Qed.
(** ** VCFarmFromFloris *)
(** the hub of turbine (i,j): row i downstream, column j across *)
Definition hub_at (nx : nat) (HH S : R) (i j : nat) : R3 := (INR i * S, (INR j - INR (nx / 2)) * S, HH).
(** an nx by ny array *)
Definition matrix (nx ny : nat) (CT : nat -> nat -> R) : list (list XN) := map (fun j => map (fun i => Fin (CT j i) : XN) (seq 0 ny)) (seq 0 nx).
Lemma nth_error_ext {A} (l m : list A) : (forall k, nth_error l k = nth_error m k) -> l = m.
Proof.
  revert m. induction l as [|x l IH]; intros [|y m] H; auto; try (specialize (H 0%nat); discriminate).
  pose proof (H 0%nat) as H0. injection H0 as ->. f_equal. apply IH. intros k. apply (H (S k)).
Qed.
Lemma grid_index nx k : (0 < nx)%nat -> k = (k / nx * nx + k mod nx)%nat.
Proof. intros H. rewrite Nat.mul_comm. apply Nat.div_mod. lia. Qed.
Lemma nth_error_concat {A} (n : nat) (rows : list (list A)) i j : Forall (fun r => len r = n) rows -> (j < n)%nat ->
  nth_error (List.concat rows) (i * n + j) = match nth_error rows i with Some r => nth_error r j | None => None end.
Proof.
  intros H Hj. revert i. induction H as [|r rows Hr H IH]; intros i; [cbn; destruct i; destruct (_ + _)%nat; reflexivity|].
  cbn [List.concat]. destruct i as [|i].
  - cbn [Nat.mul Nat.add nth_error]. rewrite nth_error_app1 by lia. reflexivity.
  - cbn [nth_error]. rewrite nth_error_app2 by (cbn; lia). rewrite <- IH. f_equal. cbn. lia.
Qed.
Lemma nth_error_seq0 n i : nth_error (seq 0 n) i = if Nat.ltb i n then Some i else None.
Proof.
  destruct (Nat.ltb_spec i n) as [H|H].
  - rewrite (nth_error_nth' _ 0%nat) by (rewrite seq_length; auto). rewrite seq_nth by auto. reflexivity.
  - apply nth_error_None. rewrite seq_length. auto.
Qed.
Lemma concat_len {A} (n : nat) (rows : list (list A)) : Forall (fun r => len r = n) rows -> len (List.concat rows) = (len rows * n)%nat.
Proof. induction 1 as [|r rows Hr H IH]; [reflexivity|]. cbn [List.concat]. rewrite app_length, IH, Hr. cbn; lia. Qed.
(** all turbines in order *)
Definition cells (nx ny : nat) (HH S : R) (CT g : nat -> nat -> R) : list (R3 * R * R) :=
  List.concat (map (fun i => map (fun j => (hub_at nx HH S i j, CT j i, g j i)) (seq 0 nx)) (seq 0 ny)).
Lemma cells_rows nx ny {A} (f : nat -> nat -> A) : Forall (fun r => len r = nx) (map (fun i => map (f i) (seq 0 nx)) (seq 0 ny)).
Proof. apply Forall_forall. intros r Hr. apply in_map_iff in Hr. destruct Hr as (i & <- & _). rewrite map_length, seq_length. reflexivity. Qed.
Lemma cells_nth nx ny {A} (f : nat -> nat -> A) i j : (i < ny)%nat -> (j < nx)%nat ->
  nth_error (List.concat (map (fun i => map (f i) (seq 0 nx)) (seq 0 ny))) (i * nx + j) = Some (f i j).
Proof.
  intros Hi Hj. rewrite (nth_error_concat nx) by (auto using cells_rows). rewrite nth_error_map, nth_error_seq0.
  replace (Nat.ltb i ny) with true by (symmetry; apply Nat.ltb_lt; auto). cbn [option_map]. rewrite nth_error_map, nth_error_seq0.
  replace (Nat.ltb j nx) with true by (symmetry; apply Nat.ltb_lt; auto). reflexivity.
Qed.
Lemma cells_len nx ny {A} (f : nat -> nat -> A) : len (List.concat (map (fun i => map (f i) (seq 0 nx)) (seq 0 ny))) = (ny * nx)%nat.
Proof. rewrite (concat_len nx) by apply cells_rows. rewrite map_length, seq_length. reflexivity. Qed.
(** a list given at all grid indices is the list of cells *)
Lemma as_cells nx ny {A} (f : nat -> nat -> A) l : len l = (ny * nx)%nat ->
  (forall i j, (i < ny)%nat -> (j < nx)%nat -> nth_error l (i * nx + j) = Some (f i j)) ->
  l = List.concat (map (fun i => map (f i) (seq 0 nx)) (seq 0 ny)).
Proof.
  intros HL H. apply nth_error_ext. intros k. destruct (Nat.lt_ge_cases k (ny * nx)) as [Hk|Hk].
  - assert (0 < nx)%nat by (destruct nx; lia). rewrite (grid_index nx k) by auto.
    assert (k / nx < ny)%nat by (apply Nat.div_lt_upper_bound; lia). assert (k mod nx < nx)%nat by (apply Nat.mod_upper_bound; lia).
    rewrite H, cells_nth; auto.
  - rewrite (proj2 (nth_error_None l k)) by lia. symmetry. apply nth_error_None. rewrite cells_len. auto.
Qed.
Lemma map_cells {A B} nx ny (h : A -> B) (f : nat -> nat -> A) :
  map h (List.concat (map (fun i => map (f i) (seq 0 nx)) (seq 0 ny))) = List.concat (map (fun i => map (fun j => h (f i j)) (seq 0 nx)) (seq 0 ny)).
Proof. rewrite concat_map, map_map. f_equal. apply map_ext. intros i. apply map_map. Qed.
Lemma transpose_cells nx ny CT : transpose_ravel (N := XN) nx ny (matrix nx ny CT) = List.concat (map (fun i => map (fun j => Fin (CT j i) : XN) (seq 0 nx)) (seq 0 ny)).
Proof.
  unfold transpose_ravel. f_equal. apply map_ext_in. intros i Hi. apply in_seq in Hi. apply map_ext_in. intros j Hj. apply in_seq in Hj.
  unfold entry, matrix.
  assert (E : nth_error (map (fun j0 => map (fun i0 => Fin (CT j0 i0) : XN) (seq 0 ny)) (seq 0 nx)) j = Some (map (fun i0 => Fin (CT j i0) : XN) (seq 0 ny))).
  { rewrite nth_error_map, nth_error_seq0. replace (Nat.ltb j nx) with true by (symmetry; apply Nat.ltb_lt; lia). reflexivity. }
  rewrite (nth_error_nth _ _ _ E). apply nth_error_nth. rewrite nth_error_map, nth_error_seq0.
  replace (Nat.ltb i ny) with true by (symmetry; apply Nat.ltb_lt; lia). reflexivity.
Qed.
Theorem C108_farm_layout : forall minim f nx ny (CT g : nat -> nat -> R) HH S Model, (0 < nx)%nat -> (0 < ny)%nat ->
  (forall i j, (i < ny)%nat -> (j < nx)%nat -> intensity f (CT j i) (g j i)) ->
  exists ts, VCFarmFromFloris (N := XN) minim nx ny (matrix nx ny CT) (Fin HH) (Fin S) f Model = Ok ts /\ len ts = (ny * nx)%nat /\
    forall i j, (i < ny)%nat -> (j < nx)%nat -> exists t, nth_error ts (i * nx + j) = Some t /\
      farm_turbine minim t (hub_at nx HH S i j) (Rltb HH 10) Model (g j i).
Proof.
  intros minim f nx ny CT g HH S Model Hx Hy HI. unfold VCFarmFromFloris.
  destruct (C05_gridLayout_positions XN nx (Fin S) ny (Fin S) (Fin HH) false) as (xs & ys & zs & E & Lx & Ly & Lz & H). rewrite E. cbn [bind].
  assert (H' : forall i j, (i < ny)%nat -> (j < nx)%nat -> nth_error xs (i * nx + j) = Some (Fin ((INR j - INR (nx / 2)) * S) : XN) /\ nth_error ys (i * nx + j) = Some (Fin HH : XN) /\ nth_error zs (i * nx + j) = Some (Fin (INR i * S) : XN)).
  { intros i j Hi Hj. destruct (H 0%nat i j) as (A & B & C); auto. cbn [Nat.mul Nat.add Nat.eqb] in A, B, C. rewrite A, B, C. xn.
    rewrite minus_IZR, <- !INR_IZR_INZ. repeat split. }
  assert (L : (ny * nx * 1)%nat = (ny * nx)%nat) by lia. rewrite L in Lx. rewrite Lx in Ly, Lz.
  apply (as_cells nx ny (fun i j => Fin ((INR j - INR (nx / 2)) * S) : XN) xs) in Lx as Ex; [|intros; apply H'; auto].
  apply (as_cells nx ny (fun i j => Fin HH : XN) ys) in Ly as Ey; [|intros; apply H'; auto].
  apply (as_cells nx ny (fun i j => Fin (INR i * S) : XN) zs) in Lz as Ez; [|intros; apply H'; auto].
  destruct ys as [|z0 ys']. { cbn [List.length] in Ly. nia. }
  assert (Z0 : z0 = Fin HH). { destruct (H' 0%nat 0%nat) as (_ & B & _); auto. cbn in B. injection B as ->. reflexivity. }
  rewrite Z0 in *. set (ys := (Fin HH : XN) :: ys') in *.
  assert (Q : map2 (fun (xy : XN * XN) (z : XN) => farm_wt (N := XN) (fst xy, snd xy, z) (nlt XN (Fin HH) (nZ XN 10)) Model) (map2 pair zs xs) ys =
              map (fun x => farm_wt (N := XN) (lift3 (fst (fst x))) (Rltb HH 10) Model) (cells nx ny HH S CT g)).
  { unfold cells. rewrite map_cells. apply as_cells; [rewrite !map2_length; lia|]. intros i j Hi Hj. rewrite !map2_nth_error.
    destruct (H' i j Hi Hj) as (A & B & C). rewrite A, B, C. reflexivity. }
  match goal with |- context [farm_load minim f ?a ?b] => replace a with (map (fun x => farm_wt (N := XN) (lift3 (fst (fst x))) (Rltb HH 10) Model) (cells nx ny HH S CT g)) by (symmetry; exact Q);
    replace b with (map (fun x => Fin (snd (fst x)) : XN) (cells nx ny HH S CT g)) by (symmetry; unfold cells; rewrite map_cells; apply transpose_cells) end.
  destruct (farm_load_ok minim f (Rltb HH 10) Model (cells nx ny HH S CT g)) as (ts & EL & F).
  { intros x Hx'. unfold cells in Hx'. apply in_concat in Hx'. destruct Hx' as (row & Hr & Hx'). apply in_map_iff in Hr. destruct Hr as (i & <- & Hi). apply in_map_iff in Hx'. destruct Hx' as (j & <- & Hj).
    apply in_seq in Hi. apply in_seq in Hj. cbn [fst snd]. apply HI; lia. }
  exists ts. split; [exact EL|]. split; [rewrite <- (Forall2_len _ _ _ F); unfold cells; apply cells_len|].
  intros i j Hi Hj. assert (N : nth_error (cells nx ny HH S CT g) (i * nx + j) = Some (hub_at nx HH S i j, CT j i, g j i)).
  { unfold cells. exact (cells_nth nx ny (fun i j => (hub_at nx HH S i j, CT j i, g j i)) i j Hi Hj). }
  destruct (Forall2_nth _ _ _ _ _ F N) as (t & E1 & E2). exists t. split; auto.
Qed.
(** an empty array: zWT[0] raises *)
Theorem C108_empty : forall minim f nx ny CTs HH S Model, nx = 0%nat \/ ny = 0%nat ->
  VCFarmFromFloris (N := XN) minim nx ny CTs HH S f Model = Err EIndexError.
Proof.
  intros minim f nx ny CTs HH S Model H. unfold VCFarmFromFloris.
  destruct (C05_gridLayout_positions XN nx S ny S HH false) as (xs & ys & zs & E & Lx & Ly & Lz & _). rewrite E. cbn [bind].
  assert (L : len ys = 0%nat) by (rewrite Ly, Lx; destruct H as [-> | ->]; lia). destruct ys; [reflexivity|discriminate].
Qed.
(** each turbine on its own: the velocity at its hub, with or without ground effect *)
Lemma farm_skew minim t pos Ground Model g : farm_turbine minim t pos Ground Model g -> skew_is t (1, 0, 0) (0, 0, 1) (1, 0, 0) 0 0.
Proof.
  intros H. right. split; [exact (ft_chi _ _ _ _ _ _ H)|]. exists 1, 0, 0. pose proof PI_RGT_0. split; [lra|]. split; [lra|]. split; [|ring].
  unfold wind. rewrite rotate_0. unfold add3, scal3, px, py, pz; cbn [fst snd]. f_equal; [f_equal|]; ring.
Qed.
Theorem C108_rotor_velocity : forall minim t pos Ground g o (ps : list R3) i,
  farm_turbine minim t pos Ground "VC" g -> tang_only o -> o_Model o = None -> 1 / 2 <= pz pos -> nth_error ps i = Some pos ->
  exists us w, snd (compute_u t o (map lift3 ps)) = Ok us /\ nth_error us i = Some (lift3 w) /\
    px w = (if o_only_ind o then 0 else 1) + g / 2.
Proof.
  intros minim t pos Ground g o ps i H HO HM HZ Hi.
  assert (EM : model_of t o = "VC"%string) by (unfold model_of; rewrite HM; exact (ft_model _ _ _ _ _ _ H)).
  assert (R0 : Rabs 0 <= 1 / 10000000) by (rewrite Rabs_R0; lra).
  assert (hR : 0 < 1 / 2) by lra.
  pose proof (C105_rotor_plane minim t _ _ _ _ _ _ o g 0 ps i pos (ft_built _ _ _ _ _ _ H) hR HO EM (ft_gt _ _ _ _ _ _ H) (farm_skew _ _ _ _ _ _ H) R0 Hi) as P. cbv zeta in P.
  destruct pos as [[x y] z]. unfold pz in HZ; cbn [snd] in HZ.
  assert (ES : rotate (0, 0, 1) 0 (1, 0, 0) = (1, 0, 0)) by apply rotate_0. rewrite ES in P.
  assert (L0 : length3 (sub3 (x, y, z) (x, y, z)) = 0).
  { unfold length3, inner, sub3, px, py, pz; cbn [fst snd]. rewrite !Rminus_eq_0. replace (0 * 0 + 0 * 0 + 0 * 0) with 0 by ring. apply sqrt_0. }
  assert (L1 : length3 (sub3 (x, y, z) (sub3 (x, y, z) (scal3 (2 * inner (x, y, z) (0, 0, 1)) (0, 0, 1)))) = 2 * z).
  { unfold length3, inner, sub3, scal3, px, py, pz; cbn [fst snd]. match goal with |- sqrt ?a = _ => replace a with (2 * z * (2 * z)) by ring end. apply sqrt_square. lra. }
  rewrite L0, L1 in P. destruct P as (us & w & E1 & E2 & E3).
  - unfold sub3, inner, px, py, pz; cbn [fst snd]. ring.
  - unfold off_rim. rewrite Rabs_left by lra. lra.
  - intros _. unfold off_rim. rewrite Rabs_right by lra. replace ((2 * z - 1 / 2) / (1 / 2)) with (4 * z - 1) by field. lra.
  - exists us, w. split; auto. split; auto.
    assert (EI : forall u : R3, inner u (1, 0, 0) = px u) by (intros u; unfold inner, px, py, pz; cbn [fst snd]; ring).
    rewrite !EI in E3. unfold disk in E3.
    replace (Rltb 0 (1/2)) with true in E3 by (symmetry; apply Rltb_true; lra). replace (Rltb (2 * z) (1/2)) with false in E3 by (symmetry; apply Rltb_false; lra).
    rewrite E3. destruct (o_only_ind o), (ground_on t o); unfold px, zero; cbn [fst snd]; ring.
Qed.
(** such farms exist for every array of thrust coefficients between 0 and 1; the fitted callback of the article gives finite intensities *)
Theorem C108_default_applies : forall CT, 0 <= CT <= 1 -> intensity None CT (-2 * ind_of CT (eps_conv CT 1 800 (1 / 2))).
Proof. intros CT H. split; auto. Qed.
Theorem C108_fitted_callback : forall p0 p1 p2 p3 rest CT,
  gamma_CT_fun (N := XN) (Fin p0 :: Fin p1 :: Fin p2 :: Fin p3 :: rest) (Fin CT) = Ok (Fin (-2 * (p0 * CT + p1 * CT ^ 2 + p2 * CT ^ 3 + p3 * CT ^ 4)) : XN) /\
  intensity (Some (mapM (gamma_CT_fun (N := XN) (Fin p0 :: Fin p1 :: Fin p2 :: Fin p3 :: rest)))) CT (-2 * (p0 * CT + p1 * CT ^ 2 + p2 * CT ^ 3 + p3 * CT ^ 4)).
Proof.
  intros p0 p1 p2 p3 rest CT.
  assert (E : gamma_CT_fun (N := XN) (Fin p0 :: Fin p1 :: Fin p2 :: Fin p3 :: rest) (Fin CT) = Ok (Fin (-2 * (p0 * CT + p1 * CT ^ 2 + p2 * CT ^ 3 + p3 * CT ^ 4)) : XN)).
  { unfold gamma_CT_fun, sq, cube, pow4. xn. do 2 f_equal. ring. }
  split; [exact E|]. cbn [intensity mapM]. rewrite E. reflexivity.
Qed.

(** ** ADFarm2VCFarm *)
(** axial velocities: unit wind plus the sum of the axial inductions of the turbines taken alone *)
Definition axial_sum (us : list (list R3)) (n : nat) : list R := map (fun k => 1 + lsum (map (fun u => px (nth k u zero)) us)) (seq 0 n).
(** the field induced by a turbine alone at the points [ps] *)
Definition alone (Ground : bool) (ps : list R3) (t : turbine XN) (u : list R3) : Prop :=
  snd (compute_u t (adfarm_opts Ground) (map lift3 ps)) = Ok (map lift3 u).
Lemma alone_len Ground ps t u : alone Ground ps t u -> len u = len ps.
Proof.
  intros H. unfold alone in H. pose proof (compute_u_length t (adfarm_opts Ground) (map lift3 ps) (map lift3 u) H) as L. rewrite !map_length in L. auto.
Qed.
Lemma members_seq (ts : list (turbine XN)) : members (map OWT ts) (seq 0 (len ts)) ts.
Proof.
  unfold members. cut (forall pre, Forall2 (fun i t => nth_error (map OWT (pre ++ ts)) i = Some (OWT t)) (seq (len pre) (len ts)) ts); [intros C; apply (C [])|].
  induction ts as [|t ts IH]; intros pre; cbn [List.length seq]; constructor.
  - rewrite nth_error_map, nth_error_app2, Nat.sub_diag by lia. reflexivity.
  - specialize (IH (pre ++ [t])). rewrite app_length in IH. cbn [List.length] in IH. rewrite Nat.add_1_r in IH.
    replace ((pre ++ [t]) ++ ts) with (pre ++ t :: ts) in IH by (rewrite <- app_assoc; reflexivity). exact IH.
Qed.
Lemma vf_again {N : Num} (h : heap N) f o o' U U' pts pts' :
  snd (velocity_field (fst (velocity_field h f o U pts)) f o' U' pts') = snd (velocity_field h f o' U' pts').
Proof.
  rewrite (velocity_field_spec h). unfold velocity_field at 1.
  pose proof (proj1 (farm_loop_spec f h (fst (velocity_field h f o U pts)) o' pts' (fzero pts') (velocity_field_heap h f o U pts))) as E.
  destruct (farm_loop (fst (velocity_field h f o U pts)) f o' pts' (fzero pts')) as [h' r]. cbn [snd] in *. rewrite E. destruct (mapM _ f); reflexivity.
Qed.
Lemma total_fin k (us : list (list R3)) n : (forall u, In u us -> len u = n) -> (k < n)%nat ->
  exists w, total_at (N := XN) k (map (map lift3) us) = lift3 w /\ px w = lsum (map (fun u => px (nth k u zero)) us).
Proof.
  intros H Hk. unfold total_at.
  assert (G : forall us s, (forall u, In u us -> len u = n) -> exists w, fold_left (fun s u => vadd s (nth k u (vzero (N := XN)))) (map (map lift3) us) (lift3 s) = lift3 w /\ px w = px s + lsum (map (fun u => px (nth k u zero)) us)).
  { clear us H. induction us as [|u us IH]; intros s H; cbn [map fold_left]; [exists s; split; [reflexivity|cbn; ring]|].
    assert (E : nth k (map lift3 u) (vzero (N := XN)) = lift3 (nth k u zero)) by (change (vzero (N := XN)) with (lift3 zero); apply map_nth).
    rewrite E, vadd_lift. destruct (IH (add3 s (nth k u zero))) as (w & E1 & E2); [intros; apply H; right; auto|].
    exists w. split; [exact E1|]. rewrite E2. change (lsum (?a :: ?l)) with (a + lsum l). unfold add3 at 1, px at 1; cbn [fst snd]. ring. }
  change (vzero (N := XN)) with (lift3 zero) at 2. destruct (G us zero H) as (w & E & P). exists w. split; [exact E|]. rewrite P. unfold px, zero; cbn [fst]. ring.
Qed.
Lemma vf_axial ts us G ps : Forall2 (alone G ps) ts us ->
  exists v, snd (velocity_field (map OWT ts) (seq 0 (len ts)) (adfarm_opts (N := XN) G) (Some (nZ XN 1, nZ XN 0, nZ XN 0)) (map lift3 ps)) = Ok v /\
    map (fun u : xpt => fst (fst u)) v = map Fin (axial_sum us (len ps)).
Proof.
  intros H. destruct (C01_farm_superposition XN (map OWT ts) (seq 0 (len ts)) ts (adfarm_opts G) (Some (nZ XN 1, nZ XN 0, nZ XN 0)) (map lift3 ps) (members_seq ts)) as [C _].
  destruct (C (map (map lift3) us)) as (v & E & L & V).
  { clear C. induction H as [|t u ts us Hu H IH]; cbn [map]; constructor; auto. }
  exists v. split; [exact E|]. rewrite map_length in L, V.
  assert (HL : forall u, In u us -> len u = len ps).
  { clear -H. induction H as [|t u ts us Hu H IH]; intros x Hx; [destruct Hx|destruct Hx as [<-|Hx]; eauto using alone_len]. }
  apply nth_error_ext. intros k. unfold axial_sum. rewrite !nth_error_map. destruct (Nat.lt_ge_cases k (len ps)) as [Hk|Hk].
  - rewrite (nth_error_nth' v (vzero (N := XN))) by lia. rewrite V by auto. rewrite nth_error_seq0. replace (Nat.ltb k (len ps)) with true by (symmetry; apply Nat.ltb_lt; auto).
    destruct (total_fin k us (len ps) HL Hk) as (w & E1 & E2). rewrite E1. cbn [option_map]. rewrite <- E2. unfold vadd, lift3; cbn [fst snd]. xn. do 2 f_equal. ring.
  - rewrite (proj2 (nth_error_None v k)) by lia. rewrite nth_error_seq0. replace (Nat.ltb k (len ps)) with false by (symmetry; apply Nat.ltb_ge; auto). reflexivity.
Qed.
Lemma rev_map_last {A B} (h : A -> B) l d : l <> [] -> exists q, rev (map h l) = h (last l d) :: q.
Proof.
  intros H. destruct (exists_last H) as (m & x & ->). rewrite last_last, map_app, rev_app_distr. cbn [map rev app]. eexists. reflexivity.
Qed.
Theorem C108_adfarm_superposition : forall minim f (l : list (R3 * R * R)) (mid top : list R3), l <> [] ->
  (forall x, In x l -> intensity f (snd (fst x)) (snd x)) ->
  let Ground := Rltb (pz (fst (fst (last l ((0,0,0), 0, 0))))) 10 in      (* height of the last turbine *)
  exists ts, Forall2 (fun x t => farm_turbine minim t (fst (fst x)) false "VC" (snd x)) l ts /\
    forall umid utop, Forall2 (alone Ground mid) ts umid -> Forall2 (alone Ground top) ts utop ->
    ADFarm2VCFarm (N := XN) minim (map (fun x => lift3 (fst (fst x))) l) (map (fun x => Fin (snd (fst x)) : XN) l) f (map lift3 mid) (map lift3 top) =
    Ok (map Fin (axial_sum umid (len mid)), map Fin (if Nat.ltb 1 (len l) then axial_sum utop (len top) else map (fun _ => 0) mid)).
Proof.
  intros minim f l mid top HL HI Ground. destruct (farm_load_ok minim f false "VC" l HI) as (ts & E & F). exists ts. split; auto.
  intros umid utop Hm Ht. unfold ADFarm2VCFarm.
  assert (ER : exists q, rev (map (fun x : R3 * R * R => lift3 (fst (fst x))) l) = lift3 (fst (fst (last l ((0,0,0), 0, 0)))) :: q).
  { apply (rev_map_last (fun x : R3 * R * R => lift3 (fst (fst x)))). auto. }
  destruct ER as (q & ER). rewrite ER.
  set (lp := fst (fst (last l ((0,0,0), 0, 0)))) in *. change (let '(_, _, z) := lift3 lp in nlt XN z (nZ XN 10)) with Ground.
  rewrite map_map in *.
  match goal with |- context [farm_load minim f ?a ?b] => change (farm_load minim f a b) with (farm_load (N := XN) minim f (map (fun x => farm_wt (N := XN) (lift3 (fst (fst x))) false "VC") l) (map (fun x => Fin (snd (fst x)) : XN) l)) end.
  rewrite E. cbn [bind]. rewrite map_length.
  destruct (vf_axial ts umid Ground mid Hm) as (vm & Em & Am). destruct (vf_axial ts utop Ground top Ht) as (vt & Et & At).
  destruct (velocity_field (map OWT ts) (seq 0 (len ts)) (adfarm_opts (N := XN) Ground) (Some (nZ XN 1, nZ XN 0, nZ XN 0)) (map lift3 mid)) as [h' r] eqn:EV.
  cbn [snd] in Em. subst r. cbn [bind].
  destruct (Nat.ltb 1 (len l)).
  - replace h' with (fst (h', @Ok (list xpt) vm)) by reflexivity. rewrite <- EV, vf_again, Et. cbn [bind]. f_equal. f_equal; [exact Am|exact At].
  - f_equal. f_equal; [exact Am|]. etransitivity; [exact (f_equal (map (fun u : XN => nmul XN u (nZ XN 0))) Am)|]. unfold axial_sum. rewrite !map_map.
    transitivity (map (fun _ : nat => Fin 0) (seq 0 (len mid))); [apply map_ext; intros; xn; f_equal; ring|].
    clear. generalize 0%nat. induction mid as [|p mid IH]; intros a; cbn [List.length seq map]; [reflexivity|]. f_equal. apply IH.
Qed.

(** no turbine: the loop variable r_hub is not bound; fewer thrust coefficients than turbines: zip leaves turbines unloaded and the velocity raises *)
Theorem C108_adfarm_empty : forall minim CTs f mid top, ADFarm2VCFarm (N := XN) minim [] CTs f mid top = Err (EUnboundLocal "r_hub").
Proof. reflexivity. Qed.
Theorem C108_adfarm_unloaded : forall minim f (l : list (R3 * R * R)) (p : R3) (extra : list R3) (mid top : list R3),
  (forall x, In x l -> intensity f (snd (fst x)) (snd x)) ->
  exists e, ADFarm2VCFarm (N := XN) minim (map (fun x => lift3 (fst (fst x))) l ++ map lift3 (p :: extra)) (map (fun x => Fin (snd (fst x)) : XN) l) f (map lift3 mid) (map lift3 top) = Err e.
Proof.
  intros minim f l p extra mid top HI.
  assert (EL : exists ts, farm_load (N := XN) minim f (map (fun q => farm_wt (N := XN) q false "VC") (map (fun x => lift3 (fst (fst x))) l ++ map lift3 (p :: extra))) (map (fun x => Fin (snd (fst x)) : XN) l)
                = Ok (ts ++ farm_wt (N := XN) (lift3 p) false "VC" :: map (fun q => farm_wt (N := XN) (lift3 q) false "VC") extra)).
  { clear mid top. induction l as [|[[q c] g] l IH]; cbn [map app farm_load fst snd].
    - exists []. cbn [app]. f_equal. f_equal. apply map_map.
    - destruct (farm_set_ok minim f q false "VC" c g (HI (q, c, g) (or_introl eq_refl))) as (t & E & _). rewrite E. cbn [bind].
      destruct IH as (ts & E'); [intros x Hx; apply HI; right; auto|]. cbn [map] in E'. rewrite E'. exists (t :: ts). reflexivity. }
  destruct EL as (ts & EL). unfold ADFarm2VCFarm.
  match goal with |- context [rev ?a] => destruct (rev a) as [|[[a1 a2] a3] q] eqn:ER end.
  { exfalso. apply (f_equal (@List.length _)) in ER. rewrite rev_length, app_length in ER. cbn in ER. lia. }
  match goal with |- context [farm_load minim f ?a ?b] => change (farm_load minim f a b) with (farm_load (N := XN) minim f (map (fun q => farm_wt (N := XN) q false "VC") (map (fun x => lift3 (fst (fst x))) l ++ map lift3 (p :: extra))) (map (fun x => Fin (snd (fst x)) : XN) l)) end.
  rewrite EL. cbn [bind]. match goal with |- context [map OWT ?a] => set (all := a) end. set (G := nlt XN a3 (nZ XN 10)).
  destruct (C01_farm_superposition XN (map OWT all) (seq 0 (len all)) all (adfarm_opts G) (Some (nZ XN 1, nZ XN 0, nZ XN 0)) (map lift3 mid) (members_seq all)) as [_ C].
  destruct C as (e & C).
  { unfold all. apply Exists_app. right. apply Exists_cons_hd. exists need_loading. rewrite compute_u_terms. reflexivity. }
  destruct (velocity_field _ _ _ _ (map lift3 mid)) as [h' r] eqn:EV. exists e.
  cbn [snd] in C. rewrite C. reflexivity.
Qed.
Lemma all_lift (us : list (XN * XN * XN)) : (forall i, (i < len us)%nat -> exists w, nth_error us i = Some (lift3 w)) ->
  exists u, us = map lift3 u /\ len u = len us /\ forall i w, nth_error us i = Some (lift3 w) -> nth_error u i = Some w.
Proof.
  induction us as [|a us IH]; intros A.
  - exists []. split; [reflexivity|]. split; [reflexivity|]. intros [|i] w E; discriminate.
  - destruct (A 0%nat) as (w & E); [apply Nat.lt_0_succ|]. cbn [nth_error] in E. injection E as ->.
    destruct IH as (u & -> & L & N); [intros i Hi; apply (A (S i)); apply -> Nat.succ_lt_mono; auto|].
    exists (w :: u). split; [reflexivity|]. split; [cbn [List.length]; rewrite L; reflexivity|].
    intros [|i] w' E; cbn [nth_error] in *; [|apply N; auto]. destruct w as [[? ?] ?], w' as [[? ?] ?]. unfold lift3, px, py, pz in E; cbn [fst snd] in E. congruence.
Qed.
(** a row of turbines side by side at hub height HH >= 10: at the hub of turbine k only turbine k induces an axial velocity *)
Theorem C108_row_of_turbines : forall minim f (l : list (R3 * R * R)), l <> [] ->
  (forall x, In x l -> intensity f (snd (fst x)) (snd x)) -> (forall x, In x l -> px (fst (fst x)) = 0 /\ 10 <= pz (fst (fst x))) ->
  (forall i j x y, nth_error l i = Some x -> nth_error l j = Some y -> i <> j -> 1 <= length3 (sub3 (fst (fst x)) (fst (fst y)))) ->
  exists top, ADFarm2VCFarm (N := XN) minim (map (fun x => lift3 (fst (fst x))) l) (map (fun x => Fin (snd (fst x)) : XN) l) f (map lift3 (map (fun x => fst (fst x)) l)) (map lift3 (map (fun x => fst (fst x)) l)) =
    Ok (map Fin (map (fun x => 1 + snd x / 2) l), top).
Proof.
  intros minim f l HL HI HP HS. set (hubs := map (fun x => fst (fst x)) l).
  destruct (C108_adfarm_superposition minim f l hubs hubs HL HI) as (ts & F & C). set (G := Rltb _ 10) in C.
  assert (HG : G = false).
  { apply Rltb_false. destruct (exists_last HL) as (m & x & E). rewrite E, last_last. apply HP. rewrite E. apply in_or_app. right; left; auto. }
  (* the induction of turbine k at the hubs *)
  assert (K : forall k x t, nth_error l k = Some x -> farm_turbine minim t (fst (fst x)) false "VC" (snd x) ->
     exists u, alone G hubs t u /\ forall i, (i < len l)%nat -> px (nth i u zero) = if Nat.eqb i k then snd x / 2 else 0).
  { intros k x t Hk FT.
    assert (P : forall i y, nth_error l i = Some y -> exists us w, snd (compute_u t (adfarm_opts G) (map lift3 hubs)) = Ok us /\ nth_error us i = Some (lift3 w) /\ px w = if Nat.eqb i k then snd x / 2 else 0).
    { intros i y Hy. assert (Hh : nth_error hubs i = Some (fst (fst y))) by (unfold hubs; rewrite nth_error_map, Hy; reflexivity).
      assert (hR : 0 < 1 / 2) by lra. assert (TO : tang_only (adfarm_opts G)) by (repeat split). assert (R0 : Rabs 0 <= 1 / 10000000) by (rewrite Rabs_R0; lra).
      pose proof (C105_rotor_plane minim t _ _ _ _ _ _ (adfarm_opts G) (snd x) 0 hubs i (fst (fst y)) (ft_built _ _ _ _ _ _ FT) hR TO eq_refl (ft_gt _ _ _ _ _ _ FT) (farm_skew _ _ _ _ _ _ FT) R0 Hh) as Q. cbv zeta in Q.
      assert (ES : rotate (0, 0, 1) 0 (1, 0, 0) = (1, 0, 0)) by apply rotate_0. rewrite ES in Q.
      assert (EI : forall u : R3, inner u (1, 0, 0) = px u) by (intros u; unfold inner, px, py, pz; cbn [fst snd]; ring).
      assert (GO : ground_on t (adfarm_opts G) = false) by (unfold ground_on; cbn [adfarm_opts o_ground]; exact HG).
      rewrite GO, !EI in Q.
      assert (X0 : px (sub3 (fst (fst y)) (fst (fst x))) = 0).
      { apply nth_error_In in Hy. apply nth_error_In in Hk. destruct (HP _ Hy) as [A _]. destruct (HP _ Hk) as [B _]. unfold sub3, px in *; cbn [fst snd]. lra. }
      assert (D : length3 (sub3 (fst (fst y)) (fst (fst x))) = 0 /\ i = k \/ 1 <= length3 (sub3 (fst (fst y)) (fst (fst x))) /\ i <> k).
      { destruct (Nat.eq_dec i k) as [->|N]; [left|right; split; [eapply HS; eauto|auto]]. split; auto. rewrite Hk in Hy. injection Hy as <-. destruct x as [[[[a b] c] ?] ?]; cbn [fst snd].
        unfold length3, inner, sub3, px, py, pz; cbn [fst snd]. rewrite !Rminus_eq_0. replace (0 * 0 + 0 * 0 + 0 * 0) with 0 by ring. apply sqrt_0. }
      destruct Q as (us & w & E1 & E2 & E3); auto; [|discriminate|].
      - unfold off_rim. destruct D as [[-> _]|[D _]]; [rewrite Rabs_left by lra; lra|]. rewrite Rabs_right by lra.
        match goal with |- _ <= (?a - _) / _ => replace ((a - 1 / 2) / (1 / 2)) with (2 * a - 1) by field end. lra.
      - exists us, w. split; auto. split; auto. rewrite <- EI, E3. cbn [adfarm_opts o_only_ind]. unfold disk, zero, px; cbn [fst].
        destruct D as [[-> ->]|[D N]]; [rewrite Nat.eqb_refl; replace (Rltb 0 (1/2)) with true by (symmetry; apply Rltb_true; lra); lra|].
        replace (Nat.eqb i k) with false by (symmetry; apply Nat.eqb_neq; auto). replace (Rltb _ (1/2)) with false by (symmetry; apply Rltb_false; lra). lra. }
    destruct (snd (compute_u t (adfarm_opts G) (map lift3 hubs))) as [us|e] eqn:EU.
    2:{ destruct (P k x Hk) as (? & ? & ? & _). discriminate. }
    assert (LU : len us = len hubs) by (pose proof (compute_u_length _ _ _ _ EU) as L; rewrite map_length in L; auto).
    assert (LH : len hubs = len l) by (unfold hubs; apply map_length).
    assert (Q : exists u, us = map lift3 u /\ len u = len us /\ forall i w, nth_error us i = Some (lift3 w) -> nth_error u i = Some w).
    { assert (A : forall i, (i < len us)%nat -> exists w, nth_error us i = Some (lift3 w)).
      { intros i Hi. destruct (nth_error l i) as [y|] eqn:Ey; [|apply nth_error_None in Ey; lia]. destruct (P i y Ey) as (us' & w & E1 & E2 & _). apply Ok_inj in E1. subst us'. exists w; auto. }
      exact (all_lift us A). }
    destruct Q as (u & -> & Lu & N). exists u. split; [exact EU|]. intros i Hi. destruct (nth_error l i) as [y|] eqn:Ey; [|apply nth_error_None in Ey; lia].
    destruct (P i y Ey) as (us' & w & E1 & E2 & E3). apply Ok_inj in E1. subst us'. rewrite (nth_error_nth _ _ _ (N _ _ E2)). exact E3. }
  (* sum over the turbines *)
  assert (S : forall n, exists u, Forall2 (alone G hubs) (skipn n ts) u /\ forall i, (i < len l)%nat ->
     lsum (map (fun u => px (nth i u zero)) u) = if Nat.leb n i then match nth_error l i with Some x => snd x / 2 | None => 0 end else 0).
  { assert (LT : len l = len ts) by exact (Forall2_len _ _ _ F).
    intros n. remember (len l - n)%nat as m eqn:Em. revert n Em. induction m as [|m IH]; intros n Em.
    - exists []. rewrite skipn_all2 by lia. split; [constructor|]. intros i Hi. replace (Nat.leb n i) with false by (symmetry; apply Nat.leb_gt; lia). reflexivity.
    - destruct (nth_error l n) as [x|] eqn:Ex; [|apply nth_error_None in Ex; lia]. destruct (Forall2_nth _ _ _ _ _ F Ex) as (t & Et & FT).
      destruct (K n x t Ex FT) as (u & Hu & Vu). destruct (IH (Datatypes.S n)) as (us & Hus & Vus); [lia|].
      exists (u :: us). split.
      + assert (SK : skipn n ts = t :: skipn (Datatypes.S n) ts).
        { clear - Et. revert n Et. induction ts as [|a ts IH]; intros [|n] Et; try discriminate; [injection Et as ->; reflexivity|]. apply (IH n Et). }
        rewrite SK. constructor; auto.
      + intros i Hi. cbn [map]. change (lsum (?a :: ?q)) with (a + lsum q). rewrite Vu, Vus by auto.
        destruct (Nat.eqb_spec i n) as [->|N]; [rewrite Ex; replace (Nat.leb (Datatypes.S n) n) with false by (symmetry; apply Nat.leb_gt; lia); replace (Nat.leb n n) with true by (symmetry; apply Nat.leb_le; lia); ring|].
        destruct (Nat.leb_spec (Datatypes.S n) i), (Nat.leb_spec n i); try lia; ring. }
  destruct (S 0%nat) as (us & Hus & Vus). cbn [skipn] in Hus. rewrite (C us us Hus Hus). eexists.
  cut (axial_sum us (len hubs) = map (fun x : R3 * R * R => 1 + snd x / 2) l); [intros ->; reflexivity|].
  unfold axial_sum. apply nth_error_ext. intros i. rewrite !nth_error_map, nth_error_seq0. unfold hubs. rewrite map_length.
  destruct (Nat.ltb_spec i (len l)) as [Hi|Hi].
  - cbn [option_map]. rewrite Vus by auto. cbn [Nat.leb]. destruct (nth_error l i) as [y|] eqn:Ey; [reflexivity|]. apply nth_error_None in Ey. lia.
  - rewrite (proj2 (nth_error_None l i)) by auto. reflexivity.
Qed.
Example C108_case : exists l : list (R3 * R * R), len l = 2%nat /\ (forall x, In x l -> intensity None (snd (fst x)) (snd x)) /\
  (forall x, In x l -> px (fst (fst x)) = 0 /\ 10 <= pz (fst (fst x))) /\
  (forall i j x y, nth_error l i = Some x -> nth_error l j = Some y -> i <> j -> 1 <= length3 (sub3 (fst (fst x)) (fst (fst y)))).
Proof.
  exists [((0, 0, 20), 6/10, -2 * ind_of (6/10) (eps_conv (6/10) 1 800 (1/2))); ((0, 5, 20), 8/10, -2 * ind_of (8/10) (eps_conv (8/10) 1 800 (1/2)))].
  split; [reflexivity|]. split; [intros x [<-|[<-|[]]]; split; cbn [fst snd]; lra|]. split; [intros x [<-|[<-|[]]]; cbn; lra|].
  assert (A : forall d, d = 5 \/ d = -5 -> 1 <= sqrt (0 * 0 + d * d + 0 * 0)).
  { intros d H. apply Rle_trans with (sqrt 1); [rewrite sqrt_1; lra|]. apply sqrt_le_1_alt. destruct H as [-> | ->]; lra. }
  intros [|[|i]] [|[|j]] x y Hx Hy N; try lia; try (destruct i; discriminate); try (destruct j; discriminate); injection Hx as <-; injection Hy as <-;
    unfold length3, inner, sub3, px, py, pz; cbn [fst snd]; rewrite !Rminus_eq_0; apply A; lra.
Qed.
