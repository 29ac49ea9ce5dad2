(** * C08: the constant-CT grid farm (WindFarm.py:120-137) *)
From Coquelicot Require Import Coquelicot.
From Coq Require Import ZArith List Bool Arith Lia String Reals Lra Psatz.
From Verif Require Import Num NumR NumX M_Elliptic M_Cylinder M_Turbine M_Farm L_List L_X L_Built Spec L_Layout L_Carlson P_Line P_Ring P_Cylinder P_Cylinder2.
Import ListNotations.
Local Open Scope R_scope.
Local Notation len := List.length.

(** ** Specification *)
(** where the documentation of the grid puts the turbine of row i, column j (c = 0: the farm, c = 1: its mirror image) *)
Definition grid_pos (nx : nat) (dx dz h : R) (c i j : nat) : R3 :=
  (IZR (Z.of_nat j - Z.of_nat (nx / 2)%nat) * dx, if Nat.eqb c 0 then h else - h, IZR (Z.of_nat i) * dz).
(** [v] is the velocity one cylinder of intensity g and radius Rr centred at [c] induces at [pts] *)
Definition cyl_field (g Rr : R) (c : R3) (pts v : list R3) : Prop :=
  len v = len pts /\ vc_tang_u (N := XN) (Fin g) (Fin Rr) (Fin 0) (map xv (map (fun p => sub3 p c) pts)) = map xv v.
(** sum of a list of vectors *)
Definition sum3 (l : list R3) : R3 := fold_right add3 zero l.

(** ** Proof *)
Lemma xv_inj a b : xv a = xv b -> a = b.
Proof. destruct a as [[a1 a2] a3], b as [[b1 b2] b3]. unfold xv. cbn. congruence. Qed.
Lemma map_xv_inj l : forall m, map xv l = map xv m -> l = m.
Proof.
  induction l as [|a l IH]; intros [|b m] H; try discriminate; auto. cbn [map] in H.
  assert (A : xv a = xv b) by congruence. f_equal; [apply xv_inj; auto|apply IH; congruence].
Qed.
Lemma map2_nth {A B C} (f : A -> B -> C) a b c l : forall m k, len l = len m -> (k < len l)%nat -> nth k (map2 f l m) c = f (nth k l a) (nth k m b).
Proof. induction l as [|x l IH]; intros [|y m] [|k] L K; cbn in *; try lia; auto. apply IH; lia. Qed.
Lemma add3_0_r a : add3 a zero = a. Proof. destruct a as [[x y] z]. unfold add3, zero, px, py, pz. cbn. repeat f_equal; ring. Qed.
Lemma add3_assoc a b c : add3 (add3 a b) c = add3 a (add3 b c).
Proof. unfold add3, px, py, pz. cbn. f_equal; [f_equal|]; ring. Qed.
Lemma add3_comm a b : add3 a b = add3 b a.
Proof. unfold add3, px, py, pz. cbn. f_equal; [f_equal|]; ring. Qed.
Lemma fadd_xv a b : fadd (N := XN) (map xv a) (map xv b) = map xv (map2 add3 a b).
Proof.
  unfold fadd. rewrite map2_map_l, map2_map_r, map_map2. apply map2_ext. intros [[x y] z] [[x' y'] z']. reflexivity.
Qed.
Lemma shift_xv c p : shift (N := XN) (xv c) (xv p) = xv (sub3 p c).
Proof. destruct c as [[? ?] ?], p as [[? ?] ?]. reflexivity. Qed.
Lemma cyl_field_ex g Rr c pts : 0 < Rr -> exists v, cyl_field g Rr c pts v.
Proof.
  intros hR. destruct (C52_finite_everywhere g Rr (map (fun p => sub3 p c) pts) hR) as [_ (v & L & E)]. exists v. split; auto.
  rewrite L. apply map_length.
Qed.
Lemma cyl_field_0 Rr c pts v : 0 < Rr -> cyl_field 0 Rr c pts v -> v = map (fun _ => zero) pts.
Proof.
  intros hR [L E]. destruct (C53_linear_in_gamma 0 0 1 Rr (map (fun p => sub3 p c) pts) hR) as (a & b & La & Lb & Ea & Eb & Es).
  replace (0 + 1 * 0) with 0 in Es by ring.
  assert (va : v = a) by (apply map_xv_inj; congruence). assert (vb : v = b) by (apply map_xv_inj; congruence). subst a b.
  assert (S : v = map2 (fun a b => add3 a (scal3 1 b)) v v) by (apply map_xv_inj; congruence).
  clear - S L. revert pts L. induction v as [|[[x y] z] v IH]; intros [|p pts] L; try discriminate; auto.
  cbn [map2] in S. assert (S1 : (x, y, z) = add3 (x, y, z) (scal3 1 (x, y, z))) by congruence. cbn [map]. f_equal.
  - unfold add3, scal3, px, py, pz in S1. cbn in S1. injection S1 as A B C. unfold zero. repeat f_equal; lra.
  - apply IH; [congruence|]. cbn in L. lia.
Qed.
Lemma vcs_sum g Rr pts : 0 < Rr -> forall P (u : list R3), len u = len pts ->
  exists Vs, Forall2 (fun c v => cyl_field g Rr c pts v) P Vs /\
    fold_left (fun (u : list (X * X * X)) (cyl : (X * X * X) * list (X * X)) =>
      fold_left (fun u Y =>
        fold_left (fun u gr =>
          if nlt XN (nZ XN 0) (nabs XN (fst gr)) then fadd (N := XN) u (vc_tang_u (N := XN) (fst gr) (snd gr) (Fin 0) Y) else u)
          (snd cyl) u)
        (ylist (N := XN) false (fst cyl) (map xv pts)) u)
      (map (fun c => (xv c, [(Fin g, Fin Rr)])) P) (map xv u) = map xv (fold_left (map2 add3) Vs u).
Proof.
  intros hR. induction P as [|c P IH]; intros u Lu.
  - exists []. split; [constructor|reflexivity].
  - destruct (cyl_field_ex g Rr c pts hR) as (v & Hv). pose proof Hv as [Lv Ev].
    destruct (IH (map2 add3 u v)) as (Vs & HF & E); [rewrite map2_length; lia|].
    exists (v :: Vs). split; [constructor; auto|]. cbn [map fold_left fst snd ylist].
    rewrite <- E. f_equal.
    assert (SH : map (shift (N := XN) (xv c)) (map xv pts) = map xv (map (fun p => sub3 p c) pts)).
    { rewrite !map_map. apply map_ext. intros p. apply shift_xv. }
    rewrite SH. rewrite <- fadd_xv, <- Ev.
    destruct (nlt XN (nZ XN 0) (nabs XN (Fin g))) eqn:G; auto.
    cbn in G. apply Rltb_false in G. pose proof (Rabs_pos g). assert (g0 : g = 0).
    { destruct (Req_dec g 0); auto. apply Rabs_pos_lt in H0. lra. }
    subst g. rewrite Ev. rewrite (cyl_field_0 Rr c pts v hR Hv). rewrite fadd_xv. f_equal.
    clear - Lu. revert pts Lu. induction u as [|a u IH]; intros [|p pts] L; try discriminate; auto. cbn [map map2]. rewrite add3_0_r. f_equal.
    apply IH. cbn in L. lia.
Qed.
Lemma fold_nth k n Vs : forall u, (k < n)%nat -> len u = n -> Forall (fun v => len v = n) Vs ->
  nth k (fold_left (map2 add3) Vs u) zero = add3 (nth k u zero) (sum3 (map (fun v => nth k v zero) Vs)).
Proof.
  induction Vs as [|v Vs IH]; intros u K L HF; cbn [fold_left map sum3 fold_right].
  - symmetry. apply add3_0_r.
  - inversion HF as [|? ? Hv HF']; subst. rewrite IH; auto; [|rewrite map2_length; lia].
    rewrite (map2_nth add3 zero zero zero); [|lia|lia]. apply add3_assoc.
Qed.
Lemma fold_len n Vs : forall u, len u = n -> Forall (fun v => len v = n) Vs -> len (fold_left (map2 add3) Vs u) = n.
Proof.
  induction Vs as [|v Vs IH]; intros u L HF; auto. inversion HF; subst. cbn. rewrite IH; auto. rewrite map2_length. lia.
Qed.
(** a list whose entries are all finite *)
Lemma all_fin (l : list X) : (forall q, (q < len l)%nat -> exists x, nth_error l q = Some (Fin x)) -> exists m, l = map Fin m.
Proof.
  induction l as [|a l IH]; intros H; [exists []; auto|].
  destruct (H 0%nat) as (x & Hx); [cbn; lia|]. cbn in Hx. injection Hx as ->.
  destruct IH as (m & ->). { intros q Hq. apply (H (S q)). cbn. lia. }
  exists (x :: m). reflexivity.
Qed.
Lemma idx nx nz nc q : (q < nz * nx * nc)%nat ->
  exists c i j, (c < nc)%nat /\ (i < nz)%nat /\ (j < nx)%nat /\ q = ((c * nz + i) * nx + j)%nat.
Proof.
  intros H. assert (nx <> 0)%nat by (intros ->; lia). assert (nz <> 0)%nat by (intros ->; lia).
  exists (q / nx / nz)%nat, (q / nx mod nz)%nat, (q mod nx)%nat.
  assert (q / nx < nz * nc)%nat. { apply Nat.div_lt_upper_bound; auto. lia. }
  repeat split.
  - apply Nat.div_lt_upper_bound; auto.
  - apply Nat.mod_upper_bound; auto.
  - apply Nat.mod_upper_bound; auto.
  - rewrite (Nat.mul_comm (q / nx / nz) nz). rewrite <- Nat.div_mod; auto. rewrite (Nat.mul_comm (q / nx) nx). apply Nat.div_mod; auto.
Qed.
Lemma grid_fin nx dx nz dz h mirror :
  exists P : list R3, gridLayout (N := XN) nx (Fin dx) nz (Some (Fin dz)) (Fin h) mirror
      = Ok (map Fin (map px P), map Fin (map py P), map Fin (map pz P)) /\
    len P = (nz * nx * if mirror then 2 else 1)%nat /\
    forall c i j, (c < if mirror then 2 else 1)%nat -> (i < nz)%nat -> (j < nx)%nat ->
      nth_error P ((c * nz + i) * nx + j) = Some (grid_pos nx dx dz h c i j).
Proof.
  destruct (gridLayout_positions (N := XN) nx (Fin dx) nz (Fin dz) (Fin h) mirror) as (xs & ys & zs & E & Lx & Ly & Lz & HP).
  set (nc := (if mirror then 2 else 1)%nat) in *.
  assert (HP' : forall c i j, (c < nc)%nat -> (i < nz)%nat -> (j < nx)%nat ->
     nth_error xs ((c * nz + i) * nx + j) = Some (Fin (px (grid_pos nx dx dz h c i j))) /\
     nth_error ys ((c * nz + i) * nx + j) = Some (Fin (py (grid_pos nx dx dz h c i j))) /\
     nth_error zs ((c * nz + i) * nx + j) = Some (Fin (pz (grid_pos nx dx dz h c i j)))).
  { intros c i j A B C. destruct (HP c i j A B C) as (X1 & X2 & X3). rewrite X1, X2, X3. repeat split. cbn. destruct (Nat.eqb c 0); reflexivity. }
  clear HP. nT. destruct (all_fin xs) as (xr & ->).
  { intros q Hq. rewrite Lx in Hq. destruct (idx _ _ _ _ Hq) as (c & i & j & A & B & C & ->). eexists. apply (HP' c i j A B C). }
  destruct (all_fin ys) as (yr & ->).
  { intros q Hq. rewrite Ly, Lx in Hq. destruct (idx _ _ _ _ Hq) as (c & i & j & A & B & C & ->). eexists. apply (HP' c i j A B C). }
  destruct (all_fin zs) as (zr & ->).
  { intros q Hq. rewrite Lz, Lx in Hq. destruct (idx _ _ _ _ Hq) as (c & i & j & A & B & C & ->). eexists. apply (HP' c i j A B C). }
  rewrite !map_length in *.
  assert (LL : forall xr yr zr : list R, len yr = len xr -> len zr = len xr ->
     let P := map2 (fun xy z => (fst xy, snd xy, z) : R3) (map2 pair xr yr) zr in
     map px P = xr /\ map py P = yr /\ map pz P = zr /\ len P = len xr).
  { clear. induction xr as [|x xr IH]; intros [|y yr] [|z zr] H1 H2; try discriminate; [repeat split|]. cbn in H1, H2.
    destruct (IH yr zr) as (A & B & C & D); try lia. cbv zeta in *. cbn. rewrite A, B, C, D. repeat split. }
  destruct (LL xr yr zr Ly Lz) as (A & B & C & D). cbv zeta in *. set (P := map2 _ _ _) in *. exists P. rewrite A, B, C. split; auto. split; [lia|].
  intros c i j Hc Hi Hj. destruct (HP' c i j Hc Hi Hj) as (X1 & X2 & X3). rewrite <- A in X1. rewrite <- B in X2. rewrite <- C in X3.
  rewrite !map_map, nth_error_map in X1, X2, X3. destruct (nth_error P ((c * nz + i) * nx + j)) as [p|]; [|discriminate]. cbn in X1, X2, X3.
  f_equal. destruct p as [[p1 p2] p3]. unfold px, py, pz in *. cbn in *.
  injection X1 as ->. injection X2 as ->. injection X3 as ->. reflexivity.
Qed.
Lemma cyls_eq g Rr (P : list R3) :
  map2 (fun (xy : X * X) (z : X) => ((fst xy, snd xy, z), [(xadd (Fin 0) (Fin g), xadd (Fin 0) (Fin Rr))]))
    (map2 pair (map Fin (map px P)) (map Fin (map py P))) (map Fin (map pz P)) = map (fun c => (xv c, [(Fin g, Fin Rr)])) P.
Proof.
  induction P as [|p P IH]; auto. cbn [map map2]. rewrite IH. f_equal. cbn [xadd fst snd]. rewrite !Rplus_0_l. destruct p as [[? ?] ?]. reflexivity.
Qed.

Theorem C08_sum_of_cylinders : forall nx dx nz dz h (mirror : bool) Rr CT U0 (pts : list R3), 0 < Rr -> CT <= 1 ->
  let nc := (if mirror then 2 else 1)%nat in
  exists (us : list R3) (Vs : list (list R3)),
    windfarm_gridlayout_CTconst (N := XN) (Fin Rr) (Fin CT) (Fin U0) nx (Fin dx) nz (Some (Fin dz)) (Fin h) mirror (map xv pts) = Ok (map xv us) /\
    len us = len pts /\ len Vs = (nz * nx * nc)%nat /\
    (forall c i j, (c < nc)%nat -> (i < nz)%nat -> (j < nx)%nat ->
       cyl_field (- U0 * (1 - sqrt (1 - CT))) Rr (grid_pos nx dx dz h c i j) pts (nth ((c * nz + i) * nx + j) Vs [])) /\
    (forall k, (k < len pts)%nat -> nth k us zero = sum3 (map (fun v => nth k v zero) Vs)).
Proof.
  intros nx dx nz dz h mirror Rr CT U0 pts hR hC. cbv zeta. destruct (grid_fin nx dx nz dz h mirror) as (P & E & L & HP).
  set (g := - U0 * (1 - sqrt (1 - CT))).
  destruct (vcs_sum g Rr pts hR P (map (fun _ => zero) pts)) as (Vs & HF & HS); [apply map_length|].
  pose proof (F2_len _ _ _ HF) as LV.
  assert (FL : Forall (fun v => len v = len pts) Vs).
  { clear - HF. induction HF as [|c v P Vs H _ IH]; constructor; auto. apply H. }
  exists (fold_left (map2 add3) Vs (map (fun _ => zero) pts)), Vs.
  assert (GG : (nmul XN (nmul XN (nopp XN (nZ XN 2)) (Fin U0)) (nmul XN (nQ XN 5 10) (nsub XN (nZ XN 1) (nsqrt XN (nsub XN (nZ XN 1) (Fin CT)))))) = Fin g).
  { xfin ltac:(lra). unfold g. f_equal. lra. }
  split; [|split; [|split; [|split]]].
  - unfold windfarm_gridlayout_CTconst, windfarm_gridlayout_CTconst_gen. rewrite E. cbn [bind]. rewrite GG. f_equal.
    change (nadd XN (nZ XN 0) (Fin g)) with (xadd (Fin 0) (Fin g)). change (nadd XN (nZ XN 0) (Fin Rr)) with (xadd (Fin 0) (Fin Rr)).
    nT. rewrite cyls_eq. unfold vcs_tang_u, vcs_tang_u_gen. rewrite <- HS. f_equal. unfold fzero. rewrite !map_map. reflexivity.
  - apply fold_len; auto. apply map_length.
  - congruence.
  - intros c i j Hc Hi Hj. pose proof (HP c i j Hc Hi Hj) as Hn. clear - HF Hn.
    revert Hn. generalize ((c * nz + i) * nx + j)%nat. induction HF as [|p v P Vs H _ IH]; intros [|q] Hn; cbn in *; try discriminate.
    + injection Hn as <-. exact H.
    + apply IH; auto.
  - intros k Hk. rewrite (fold_nth k (len pts)); auto; [|apply map_length].
    rewrite (map_nth (fun _ : R3 => zero) pts zero k). rewrite add3_comm. apply add3_0_r.
Qed.
(** above CT = 1 the intensity is NaN, no cylinder is added and the farm silently induces nothing *)
Theorem C08_above_one_silent : forall nx dx nz dz h (mirror : bool) Rr CT U0 (pts : list R3), 1 < CT ->
  windfarm_gridlayout_CTconst (N := XN) (Fin Rr) (Fin CT) (Fin U0) nx (Fin dx) nz (Some (Fin dz)) (Fin h) mirror (map xv pts) = Ok (map xv (map (fun _ => zero) pts)).
Proof.
  intros nx dx nz dz h mirror Rr CT U0 pts hC. destruct (grid_fin nx dx nz dz h mirror) as (P & E & L & HP).
  assert (GG : (nmul XN (nmul XN (nopp XN (nZ XN 2)) (Fin U0)) (nmul XN (nQ XN 5 10) (nsub XN (nZ XN 1) (nsqrt XN (nsub XN (nZ XN 1) (Fin CT)))))) = NaN).
  { cbn. match goal with |- context [Rltb ?a ?b] => replace (Rltb a b) with true by (symmetry; apply Rltb_true; lra) end. reflexivity. }
  unfold windfarm_gridlayout_CTconst, windfarm_gridlayout_CTconst_gen. rewrite E. cbn [bind]. rewrite GG. f_equal.
  unfold vcs_tang_u, vcs_tang_u_gen. cbn [nadd XN xadd].
  assert (K : forall l (u : list (X * X * X)), fold_left (fun (u : list (X * X * X)) (cyl : (X * X * X) * list (X * X)) =>
      fold_left (fun u Y =>
        fold_left (fun u gr =>
          if nlt XN (nZ XN 0) (nabs XN (fst gr)) then fadd (N := XN) u (vc_tang_u_gen (N := XN) ellipticPiCarlson (fst gr) (snd gr) (Fin 0) Y) else u)
          (snd cyl) u)
        (ylist (N := XN) false (fst cyl) (map xv pts)) u)
      (map (fun c => (c, [(NaN, xadd (Fin 0) (Fin Rr))])) l) u = u).
  { induction l as [|c l IH]; intros u; auto. cbn [map fold_left fst snd ylist]. apply IH. }
  nT. assert (M : forall xs ys zs : list X, map2 (fun (xy : X * X) (z : X) => ((fst xy, snd xy, z), [(NaN, xadd (Fin 0) (Fin Rr))])) (map2 pair xs ys) zs
     = map (fun c : X * X * X => (c, [(NaN, xadd (Fin 0) (Fin Rr))])) (map2 (fun (xy : X * X) (z : X) => (fst xy, snd xy, z)) (map2 pair xs ys) zs)).
  { intros xs ys zs. rewrite map_map2. reflexivity. }
  etransitivity; [|etransitivity; [apply (K (map2 (fun (xy : X * X) (z : X) => (fst xy, snd xy, z)) (map2 pair (map Fin (map px P)) (map Fin (map py P))) (map Fin (map pz P))) (fzero (N := XN) (map xv pts)))|]].
  - f_equal. rewrite <- M. reflexivity.
  - unfold fzero. rewrite !map_map. reflexivity.
Qed.
Example C08_nonvacuous : exists us Vs : list _, len Vs = 6%nat /\
  windfarm_gridlayout_CTconst (N := XN) (Fin 50) (Fin (8/10)) (Fin 10) 3 (Fin 500) 1 (Some (Fin 700)) (Fin 90) true (map xv [(0,0,-100); (20, 30, 40)]) = Ok (map xv us) /\
  cyl_field (- 10 * (1 - sqrt (1 - 8/10))) 50 (IZR (1 - 1) * 500, - 90, IZR 0 * 700) [(0,0,-100); (20, 30, 40)] (nth 4 Vs []).
Proof.
  destruct (C08_sum_of_cylinders 3 500 1 700 90 true 50 (8/10) 10 [(0,0,-100); (20, 30, 40)]) as (us & Vs & E & _ & LV & HV & _); [lra|lra|].
  exists us, Vs. split; [exact LV|]. split; [exact E|]. apply (HV 1%nat 0%nat 1%nat); lia.
Qed.
