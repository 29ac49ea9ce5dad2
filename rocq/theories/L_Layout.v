(** * Layout setter/getter and gridLayout *)
From Coq Require Import ZArith List Bool Arith Lia String Reals Lra.
From Verif Require Import Num NumR NumX M_Cylinder M_Turbine M_Farm L_List L_Turbine L_Farm.
Import ListNotations.
Local Open Scope num_scope.
Local Notation len := List.length.

Section Layout.
  Context {N : Num}.
  Notation pt := (N * N * N)%type.

  Lemma rows3_spec (layout : list (list N)) rows :
    rows3 layout = Some rows <-> layout = map (fun p => let '(a, b, c) := p in [a; b; c]) rows.
  Proof.
    revert rows; induction layout as [|r l IH]; intros rows; simpl.
    - split; [intros H; injection H; intros <-; reflexivity|destruct rows; [auto|discriminate]].
    - split.
      + destruct (row3 r) as [p|] eqn:E; [|discriminate].
        destruct (rows3 l) as [ps|]; [|discriminate].
        intros H; injection H; intros <-. simpl. f_equal; [|apply IH; auto].
        destruct r as [|a [|b [|c [|]]]]; try discriminate. simpl in E; injection E; intros <-. auto.
      + destruct rows as [|[[a b] c] rows]; [discriminate|]. simpl. intros H; injection H; intros -> ->.
        simpl. rewrite (proj2 (IH rows) eq_refl). reflexivity.
  Qed.

  Lemma layout_loop_spec f : forall (h : heap N) rows,
    NoDup f -> (forall i, In i f -> is_wt h i = true) -> len rows = len f ->
    snd (layout_loop h f rows) = Ok tt /\
    layout_get (fst (layout_loop h f rows)) f = Ok rows /\
    (forall i, ~ In i f -> nth_error (fst (layout_loop h f rows)) i = nth_error h i) /\
    (forall i, In i f -> exists t p, nth_error h i = Some (OWT t) /\
        nth_error (fst (layout_loop h f rows)) i = Some (OWT (update_position t p))).
  Proof.
    induction f as [|i f IH]; intros h rows HN HW HL.
    - destruct rows; simpl in *; try discriminate.
      split; [auto|split; [auto|split; [auto|intros j []]]].
    - destruct rows as [|p rows]; [discriminate|]. inversion HN as [|? ? Hni HN']; subst.
      cbn [layout_loop].
      assert (Wi := HW i (or_introl eq_refl)). unfold is_wt in Wi.
      destruct (nth_error h i) as [[t|]|] eqn:Ei; try discriminate.
      set (h1 := upd h i (OWT (update_position t p))).
      assert (Li : (i < len h)%nat) by (eapply nth_error_some_lt; eauto).
      destruct (IH h1 rows HN') as (A & B & C & D).
      + intros j Hj. unfold is_wt, h1. rewrite upd_other by (intros ->; contradiction).
        apply HW; right; auto.
      + simpl in HL; lia.
      + assert (Hi : nth_error (fst (layout_loop h1 f rows)) i = Some (OWT (update_position t p))).
        { rewrite C by auto. unfold h1. apply upd_same; auto. }
        split; [auto|]. split; [|split].
        * unfold layout_get. cbn [mapM]. unfold obj_pos at 1. rewrite Hi. cbn [bind].
          unfold layout_get in B. rewrite B. reflexivity.
        * intros j Hj. rewrite C by (intros K; apply Hj; right; auto).
          unfold h1. apply upd_other. intros ->; apply Hj; left; auto.
        * intros j [<-|Hj].
          -- exists t, p. auto.
          -- destruct (D j Hj) as (t' & p' & E1 & E2). exists t', p'. split; auto.
             rewrite <- E1. unfold h1. symmetry. apply upd_other. intros ->; contradiction.
  Qed.

  (** ** gridLayout *)
  Lemma upd_prefix {A} (l : list A) a b m : upd (l ++ a :: m) (len l) b = l ++ b :: m.
  Proof. induction l; simpl; auto. now rewrite IHl. Qed.

  Definition gx (nx : nat) (xS : N) (ij : nat * nat) : N :=
    nZ N (Z.of_nat (snd ij) - Z.of_nat (nx / 2)%nat - 1) * xS.
  Definition gz (zS : N) (ij : nat * nat) : N := nZ N (Z.of_nat (fst ij) - 1) * zS.

  Lemma grid_fold nx xS zS y : forall L n px py pz,
    len py = len px -> len pz = len px ->
    (len L <= n)%nat ->
    fold_left (fun g ij => let* g := g in grid_body nx xS (Some zS) y ij g) L
      (Ok {| g_k := len px; g_x := px ++ repeat (#0) n; g_y := py ++ repeat (#0) n;
             g_z := pz ++ repeat (#0) n |})
    = Ok {| g_k := len px + len L;
            g_x := (px ++ map (gx nx xS) L) ++ repeat (#0) (n - len L);
            g_y := (py ++ map (fun _ => y) L) ++ repeat (#0) (n - len L);
            g_z := (pz ++ map (gz zS) L) ++ repeat (#0) (n - len L) |}.
  Proof.
    induction L as [|[i j] L IH]; intros n px py pz Hy Hz Hn.
    - simpl. rewrite !app_nil_r, Nat.sub_0_r, Nat.add_0_r. reflexivity.
    - simpl in Hn. destruct n as [|n]; [lia|].
      cbn [fold_left bind]. unfold grid_body at 2. cbn [g_k g_x g_y g_z].
      replace (S (len px) - 1)%nat with (len px) by lia.
      cbn [repeat]. rewrite upd_prefix.
      replace (upd (py ++ #0 :: repeat (#0) n) (len px) y)
        with (py ++ y :: repeat (#0) n) by (rewrite <- Hy, upd_prefix; auto).
      replace (upd (pz ++ #0 :: repeat (#0) n) (len px) (nZ N (Z.of_nat i - 1) * zS))
        with (pz ++ nZ N (Z.of_nat i - 1) * zS :: repeat (#0) n) by (rewrite <- Hz, upd_prefix; auto).
      assert (E : forall (l : list N) a m, l ++ a :: m = (l ++ [a]) ++ m).
      { intros; rewrite <- app_assoc; auto. }
      rewrite (E px), (E py), (E pz).
      replace (S (len px)) with (len (px ++ [gx nx xS (i,j)])) by (rewrite app_length; simpl; lia).
      specialize (IH n (px ++ [gx nx xS (i,j)]) (py ++ [y]) (pz ++ [gz zS (i,j)])).
      change (nZ N (Z.of_nat j - Z.of_nat (nx / 2) - 1) * xS) with (gx nx xS (i, j)).
      change (nZ N (Z.of_nat i - 1) * zS) with (gz zS (i, j)).
      rewrite IH; rewrite ?app_length; simpl; try lia.
      rewrite <- !app_assoc. cbn [app]. f_equal. f_equal. lia.
  Qed.

  Lemma fold_left_prod {A B S} (F : S -> A * B -> S) (l : list A) (m : list B) s :
    fold_left (fun s a => fold_left (fun s b => F s (a, b)) m s) l s
    = fold_left F (list_prod l m) s.
  Proof.
    revert s; induction l as [|a l IH]; intros s; simpl; auto.
    rewrite fold_left_app, IH. f_equal. clear. revert s; induction m; simpl; auto.
  Qed.
  Lemma list_prod_length {A B} (l : list A) (m : list B) : len (list_prod l m) = (len l * len m)%nat.
  Proof. apply prod_length. Qed.

  Definition grid_idx (nx nz : nat) := list_prod (seq 1 nz) (seq 1 nx).
  Lemma grid_idx_length nx nz : len (grid_idx nx nz) = (nz * nx)%nat.
  Proof. unfold grid_idx. rewrite list_prod_length, !seq_length. reflexivity. Qed.
  Lemma list_prod_nth {A B} (l : list A) (m : list B) i j a b :
    nth_error l i = Some a -> nth_error m j = Some b ->
    nth_error (list_prod l m) (i * len m + j) = Some (a, b).
  Proof.
    revert i; induction l as [|x l IH]; intros [|i] Hi Hj; simpl in Hi; try discriminate.
    - injection Hi; intros ->. simpl. rewrite nth_error_app1.
      + rewrite nth_error_map, Hj. reflexivity.
      + rewrite map_length. eapply nth_error_some_lt; eauto.
    - simpl. rewrite nth_error_app2; rewrite map_length; [|lia].
      replace (len m + i * len m + j - len m)%nat with (i * len m + j)%nat by lia. auto.
  Qed.
  Lemma seq_nth_error a n i : (i < n)%nat -> nth_error (seq a n) i = Some (a + i)%nat.
  Proof.
    intros H. rewrite (nth_error_nth' _ 0%nat) by (rewrite seq_length; auto).
    rewrite seq_nth; auto.
  Qed.
  Lemma grid_idx_nth nx nz i j : (i < nz)%nat -> (j < nx)%nat ->
    nth_error (grid_idx nx nz) (i * nx + j) = Some (S i, S j).
  Proof.
    intros Hi Hj. unfold grid_idx.
    pose proof (list_prod_nth (seq 1 nz) (seq 1 nx) i j (1+i)%nat (1+j)%nat) as H.
    rewrite seq_length in H. apply H; apply seq_nth_error; auto.
  Qed.

  Lemma gridLayout_eq nx xS nz zS hub mirror :
    gridLayout nx xS nz (Some zS) hub mirror =
    let L := grid_idx nx nz in
    let d (A : list N) B := if mirror then A ++ B else A in
    Ok (d (map (gx nx xS) L) (map (gx nx xS) L),
        d (map (fun _ => hub) L) (map (fun _ => - hub) L),
        d (map (gz zS) L) (map (gz zS) L)).
  Proof.
    unfold gridLayout, grid_pass.
    set (F := fun y (g : result (grid N)) ij => let* g := g in grid_body nx xS (Some zS) y ij g).
    assert (E : forall y g, fold_left (fun g i => fold_left (fun g j => let* g := g in
                  grid_body nx xS (Some zS) y (i, j) g) (seq 1 nx) g) (seq 1 nz) g
                = fold_left (F y) (grid_idx nx nz) g).
    { intros y g. apply (fold_left_prod (F y)). }
    rewrite !E. unfold F; clear E F.
    set (L := grid_idx nx nz). assert (HL : len L = (nz * nx)%nat) by apply grid_idx_length.
    pose proof (grid_fold nx xS zS hub L (nz * nx * (if mirror then 2 else 1)) [] [] []) as G1.
    cbn [app List.length] in G1. rewrite G1; auto.
    2:{ rewrite HL. destruct mirror; nia. }
    clear G1. destruct mirror; cbn [bind g_x g_y g_z app].
    - pose proof (grid_fold nx xS zS (- hub) L (nz * nx * 2 - len L)
                   (map (gx nx xS) L) (map (fun _ => hub) L) (map (gz zS) L)) as G2.
      rewrite !map_length in G2. cbn [Nat.add]. rewrite G2; auto; [|lia].
      cbn [bind g_x g_y g_z].
      replace (nz * nx * 2 - len L - len L)%nat with 0%nat by lia.
      cbn [repeat]. rewrite !app_nil_r. reflexivity.
    - replace (nz * nx * 1 - len L)%nat with 0%nat by lia.
      cbn [repeat]. rewrite !app_nil_r. reflexivity.
  Qed.

  (** The documented positions. *)
  Lemma gridLayout_positions nx xS nz zS hub mirror :
    exists xs ys zs, gridLayout nx xS nz (Some zS) hub mirror = Ok (xs, ys, zs) /\
      len xs = (nz * nx * if mirror then 2 else 1)%nat /\ len ys = len xs /\ len zs = len xs /\
      forall c i j, (c < if mirror then 2 else 1)%nat -> (i < nz)%nat -> (j < nx)%nat ->
        let k := ((c * nz + i) * nx + j)%nat in
        nth_error xs k = Some (nZ N (Z.of_nat j - Z.of_nat (nx / 2)%nat) * xS) /\
        nth_error ys k = Some (if Nat.eqb c 0 then hub else - hub) /\
        nth_error zs k = Some (nZ N (Z.of_nat i) * zS).
  Proof.
    rewrite gridLayout_eq. cbv zeta.
    set (L := grid_idx nx nz). assert (HL : len L = (nz * nx)%nat) by apply grid_idx_length.
    eexists _, _, _. split; [reflexivity|].
    assert (B : forall i j, (i < nz)%nat -> (j < nx)%nat ->
        nth_error (map (gx nx xS) L) (i * nx + j) = Some (nZ N (Z.of_nat j - Z.of_nat (nx / 2)%nat) * xS)
        /\ nth_error (map (gz zS) L) (i * nx + j) = Some (nZ N (Z.of_nat i) * zS)
        /\ forall y, nth_error (map (fun _ => y) L) (i * nx + j) = Some (y : N)).
    { intros i j Hi Hj. rewrite !nth_error_map. unfold L. rewrite (grid_idx_nth nx nz i j Hi Hj).
      cbn [option_map]. unfold gx, gz; cbn [fst snd]. split; [|split].
      - do 3 f_equal. lia.
      - do 3 f_equal. lia.
      - intros y. rewrite nth_error_map. unfold L. rewrite (grid_idx_nth nx nz i j Hi Hj). reflexivity. }
    assert (Hlt : forall i j, (i < nz)%nat -> (j < nx)%nat -> (i * nx + j < len L)%nat)
      by (intros; rewrite HL; nia).
    destruct mirror.
    - rewrite !app_length, !map_length.
      split; [lia|split; [lia|split; [lia|]]]. intros c i j Hc Hi Hj. cbv zeta.
      destruct (B i j Hi Hj) as (B1 & B2 & B3). specialize (Hlt i j Hi Hj).
      destruct c as [|[|c]]; [| |lia].
      + replace ((0 * nz + i) * nx + j)%nat with (i * nx + j)%nat by lia.
        rewrite !nth_error_app1 by (rewrite map_length; lia). auto.
      + replace ((1 * nz + i) * nx + j)%nat with (len L + (i * nx + j))%nat by lia.
        rewrite !nth_error_app2 by (rewrite map_length; lia). rewrite !map_length.
        replace (len L + (i * nx + j) - len L)%nat with (i * nx + j)%nat by lia. auto.
    - rewrite !map_length.
      split; [lia|split; [lia|split; [lia|]]]. intros c i j Hc Hi Hj. cbv zeta.
      destruct (B i j Hi Hj) as (B1 & B2 & B3). destruct c; [|lia].
      replace ((0 * nz + i) * nx + j)%nat with (i * nx + j)%nat by lia. auto.
  Qed.

  (** Default zSpacing=None. *)
  Lemma grid_None nx nz xS y (g : result (grid N)) :
    (0 < nx)%nat -> (0 < nz)%nat -> is_ok g -> grid_pass nx nz xS None y g = Err ETypeError.
  Proof.
    intros Hx Hz [g0 ->]. unfold grid_pass.
    rewrite (fold_left_prod (fun g ij => let* g := g in grid_body nx xS None y ij g)).
    assert (HE : forall L e, fold_left (fun g ij => let* g := g in grid_body nx xS None y ij g)
                              L (Err e) = Err e) by (induction L; simpl; auto).
    destruct nx; [lia|]. destruct nz; [lia|]. simpl. apply HE.
  Qed.
  Lemma gridLayout_None nx nz (xS hub : N) mirror :
    (0 < nx)%nat -> (0 < nz)%nat -> gridLayout nx xS nz None hub mirror = Err ETypeError.
  Proof.
    intros Hx Hz. unfold gridLayout. rewrite (grid_None nx nz xS hub); auto; [|eexists; reflexivity].
    destruct mirror; [|reflexivity].
    unfold grid_pass.
    rewrite (fold_left_prod (fun g ij => let* g := g in grid_body nx xS None (- hub) ij g)).
    assert (HE : forall L e, fold_left (fun g ij => let* g := g in grid_body nx xS None (- hub) ij g)
                              L (Err e) = Err e) by (induction L; simpl; auto).
    rewrite HE. reflexivity.
  Qed.
End Layout.

(** Distinctness, in exact arithmetic. *)
Lemma gridLayout_distinct nx (xS : RN) nz (zS hub : RN) mirror (xs ys zs : list RN) k k' (x y z : RN) :
  xS <> 0%R -> zS <> 0%R -> (mirror = true -> hub <> 0%R) ->
  gridLayout (N := RN) nx xS nz (Some zS) hub mirror = Ok (xs, ys, zs) ->
  nth_error xs k = Some x -> nth_error ys k = Some y -> nth_error zs k = Some z ->
  nth_error xs k' = Some x -> nth_error ys k' = Some y -> nth_error zs k' = Some z ->
  k = k'.
Proof.
  intros Hx Hz Hh H X1 Y1 Z1 X2 Y2 Z2.
  destruct (gridLayout_positions (N := RN) nx xS nz zS hub mirror)
    as (xs' & ys' & zs' & E & L1 & L2 & L3 & P).
  rewrite E in H; injection H; intros -> -> ->. clear H E.
  assert (B : forall k, (k < len xs)%nat -> exists c i j,
     (c < if mirror then 2 else 1)%nat /\ (i < nz)%nat /\ (j < nx)%nat /\ k = ((c * nz + i) * nx + j)%nat).
  { intros q Hq. rewrite L1 in Hq. clear - Hq.
    assert (Hx : (nx <> 0)%nat) by (intros ->; rewrite Nat.mul_0_r in Hq; simpl in Hq; lia).
    assert (Hz : (nz <> 0)%nat) by (intros ->; simpl in Hq; lia).
    exists (q / (nz * nx))%nat, ((q / nx) mod nz)%nat, (q mod nx)%nat.
    split; [|split; [|split]].
    - apply Nat.div_lt_upper_bound; lia.
    - apply Nat.mod_upper_bound; auto.
    - apply Nat.mod_upper_bound; auto.
    - rewrite (Nat.mul_comm nz nx), <- Nat.div_div by auto.
      pose proof (Nat.div_mod q nx Hx). pose proof (Nat.div_mod (q/nx) nz Hz). nia. }
  destruct (B k) as (c & i & j & Hc & Hi & Hj & ->); [eapply nth_error_some_lt; eauto|].
  destruct (B k') as (c' & i' & j' & Hc' & Hi' & Hj' & ->); [eapply nth_error_some_lt; eauto|].
  destruct (P c i j Hc Hi Hj) as (PX & PY & PZ).
  destruct (P c' i' j' Hc' Hi' Hj') as (PX' & PY' & PZ').
  rewrite PX in X1. rewrite PY in Y1. rewrite PZ in Z1.
  rewrite PX' in X2. rewrite PY' in Y2. rewrite PZ' in Z2.
  assert (EX : nmul RN (nZ RN (Z.of_nat j - Z.of_nat (nx / 2)%nat)) xS = nmul RN (nZ RN (Z.of_nat j' - Z.of_nat (nx / 2)%nat)) xS) by congruence.
  assert (EZ : nmul RN (nZ RN (Z.of_nat i)) zS = nmul RN (nZ RN (Z.of_nat i')) zS) by congruence.
  cbn [nmul nZ RN] in EX, EZ.
  apply Rmult_eq_reg_r in EX; auto. apply eq_IZR in EX.
  apply Rmult_eq_reg_r in EZ; auto. apply eq_IZR in EZ.
  assert (c = c').
  { destruct mirror; [|lia]. specialize (Hh eq_refl).
    assert (EY : (if Nat.eqb c 0 then hub else nopp RN hub) = (if Nat.eqb c' 0 then hub else nopp RN hub)) by congruence.
    cbn [nopp RN] in EY.
    destruct c as [|[|c]], c' as [|[|c']]; simpl in EY; try lia; exfalso; lra. }
  subst c'. replace j' with j by lia. replace i' with i by lia. reflexivity.
Qed.
