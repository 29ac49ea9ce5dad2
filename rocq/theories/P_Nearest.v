(** * C109-C111: nearest grid node, interpolation, error measures of the article scripts *)
From Coquelicot Require Import Coquelicot.
From Coq Require Import ZArith List Bool Arith Lia String Reals Lra Psatz.
From Verif Require Import Num NumR NumX Spec M_Elliptic M_Line M_Doublet M_Misc M_Cylinder M_Skewed
  M_Solver M_Turbine M_Farm M_Helpers L_List L_Calc L_X L_Turbine L_State L_Farm L_Geom L_Angles L_TurbineX L_TurbineY L_Multi L_Built L_Layout P_Turbine P_Line P_Skewed P_Cylinder2 P_Grid P_Farm P_Centre P_Helpers P_FarmHelp.
Import ListNotations.
Local Notation len := List.length.
Local Open Scope R_scope.

(** ** first minimum *)
Definition first_min (l : list R) (k : nat) (v : R) : Prop :=
  nth_error l k = Some v /\ forall j w, nth_error l j = Some w -> v <= w /\ ((j < k)%nat -> v < w).
Lemma first_min_inj l k v k' v' : first_min l k v -> first_min l k' v' -> k = k' /\ v = v'.
Proof.
  intros (A & B) (A' & B'). assert (v = v') by (destruct (B k' v' A'), (B' k v A); lra). split; auto. subst v'.
  destruct (Nat.lt_trichotomy k k') as [H|[H|H]]; auto; [destruct (B' k v A) as [_ C]|destruct (B k' v A') as [_ C]]; specialize (C H); lra.
Qed.
Lemma isnan_fin x : isnan (N := XN) (Fin x) = false.
Proof. unfold isnan. cbn. replace (Reqb x x) with true by (symmetry; apply Reqb_true; auto). reflexivity. Qed.
Lemma isnan_nan : isnan (N := XN) NaN = true. Proof. reflexivity. Qed.
Lemma argmin_go_fin l : forall pre ib b, first_min pre ib b ->
  exists v, first_min (pre ++ l) (argmin_go (N := XN) (Fin b) ib (len pre) (map Fin l)) v.
Proof.
  induction l as [|x l IH]; intros pre ib b H; cbn [map argmin_go]; [exists b; rewrite app_nil_r; auto|].
  rewrite !isnan_fin. cbn [orb]. change (nlt XN (Fin x) (Fin b)) with (Rltb x b).
  destruct H as (A & B). assert (HL : (ib < len pre)%nat) by (apply nth_error_Some; congruence).
  replace (pre ++ x :: l) with ((pre ++ [x]) ++ l) by (rewrite <- app_assoc; reflexivity).
  replace (S (len pre)) with (len (pre ++ [x])) by (rewrite app_length; cbn; lia).
  assert (E : nth_error (pre ++ [x]) (len pre) = Some x) by (rewrite nth_error_app2, Nat.sub_diag by lia; reflexivity).
  destruct (Rltb_spec x b) as [C|C]; apply IH; split.
  - exact E.
  - intros j w Hj. destruct (Nat.lt_ge_cases j (len pre)) as [Hl|Hl].
    + rewrite nth_error_app1 in Hj by auto. destruct (B j w Hj). lra.
    + assert (j = len pre) as -> by (apply nth_error_Some_lt in Hj || (assert (j < len (pre ++ [x]))%nat by (apply nth_error_Some; congruence); rewrite app_length in *; cbn in *); lia).
      rewrite E in Hj. injection Hj as <-. split; [lra|lia].
  - rewrite nth_error_app1 by auto. exact A.
  - intros j w Hj. destruct (Nat.lt_ge_cases j (len pre)) as [Hl|Hl].
    + rewrite nth_error_app1 in Hj by auto. apply B; auto.
    + assert (j = len pre) as -> by (assert (j < len (pre ++ [x]))%nat by (apply nth_error_Some; congruence); rewrite app_length in *; cbn in *; lia).
      rewrite E in Hj. injection Hj as <-. split; [lra|lia].
Qed.
Lemma argmin_fin l : l <> [] -> exists k v, argmin (N := XN) (map Fin l) = Ok k /\ first_min l k v.
Proof.
  destruct l as [|x l]; [contradiction|]. intros _. cbn [map argmin]. destruct (argmin_go_fin l [x] 0 x) as (v & H); [|exists (argmin_go (N := XN) (Fin x) 0 1 (map Fin l)), v; split; [reflexivity|exact H]].
  split; [reflexivity|]. intros [|[|j]] w E; try discriminate. injection E as <-. split; [lra|lia].
Qed.
(** C109.  The returned index is the first one of least distance to the value *)
Definition distances (a : list R) (v : R) : list R := map (fun x => Rabs (x - v)) a.
Theorem C109_find_nearest : forall (a : list R) v, a <> [] ->
  exists k x d, find_nearest (N := XN) (map Fin a) (Fin v) = Ok (Fin x : XN, k) /\ nth_error a k = Some x /\ d = Rabs (x - v) /\ first_min (distances a v) k d.
Proof.
  intros a v H. unfold find_nearest.
  assert (E : map (fun a0 : XN => nabs XN (nsub XN a0 (Fin v))) (map Fin a) = map Fin (distances a v)) by (unfold distances; rewrite !map_map; apply map_ext; intros; reflexivity).
  destruct (argmin_fin (distances a v)) as (k & d & E1 & F); [destruct a; [contradiction|discriminate]|].
  match goal with |- context [argmin ?l] => change (argmin l) with (argmin (N := XN) (map (fun a0 : XN => nabs XN (nsub XN a0 (Fin v))) (map Fin a))) end.
  rewrite E, E1. cbn [bind]. destruct F as (F1 & F2). unfold distances in F1. rewrite nth_error_map in F1. destruct (nth_error a k) as [x|] eqn:Ex; [|discriminate].
  cbn [option_map] in F1. injection F1 as F1. exists k, x, d. split.
  - f_equal. f_equal. apply nth_error_nth. nT. rewrite nth_error_map, Ex. reflexivity.
  - split; auto. split; auto. split; auto. unfold distances. rewrite nth_error_map, Ex. cbn. congruence.
Qed.
Theorem C109_find_nearest_empty : forall v, find_nearest (N := XN) [] v = Err EValueError.
Proof. reflexivity. Qed.
(** a value that is in the (duplicate-free) array is found *)
Theorem C109_find_exact : forall (a : list R) k v, nth_error a k = Some v -> NoDup a -> find_nearest (N := XN) (map Fin a) (Fin v) = Ok (Fin v : XN, k).
Proof.
  intros a k v Hk HD. destruct (C109_find_nearest a v) as (k' & x & d & E & Ex & Ed & F1 & F2); [destruct a; [destruct k; discriminate|discriminate]|].
  assert (Z : nth_error (distances a v) k = Some 0) by (unfold distances; rewrite nth_error_map, Hk; cbn; f_equal; rewrite Rminus_eq_0; apply Rabs_R0).
  destruct (F2 k 0 Z) as (A & _). pose proof (Rabs_pos (x - v)) as P. assert (D0 : Rabs (x - v) = 0) by lra.
  assert (x = v). { destruct (Req_dec (x - v) 0) as [Q|Q]; [lra|]. apply Rabs_no_R0 in Q. lra. } subst x.
  rewrite E. do 2 f_equal. apply (NoDup_nth_error a); auto; [apply nth_error_Some; congruence|congruence].
Qed.
(** a NaN in the array wins *)
Theorem C109_find_nan : forall (pre : list R) post v, find_nearest (N := XN) (map Fin pre ++ NaN :: post) (Fin v) = Ok (NaN : XN, len pre).
Proof.
  intros pre post v. unfold find_nearest.
  assert (G : forall l b ib i, argmin_go (N := XN) (Fin b) ib i (map (fun a : XN => nabs XN (nsub XN a (Fin v))) (map Fin l ++ NaN :: post)) = (i + len l)%nat).
  { induction l as [|x l IH]; intros b ib i; cbn [map app argmin_go].
    - rewrite isnan_fin. change (nabs XN (nsub XN NaN (Fin v))) with NaN. rewrite isnan_nan. cbn [orb List.length]. rewrite Nat.add_0_r.
      destruct (map (fun a : XN => nabs XN (nsub XN a (Fin v))) post); [reflexivity|]. cbn [argmin_go]. rewrite isnan_nan. reflexivity.
    - change (nabs XN (nsub XN (Fin x) (Fin v))) with (Fin (Rabs (x - v))). rewrite !isnan_fin. cbn [orb].
      destruct (nlt XN _ _); rewrite IH; cbn; lia. }
  assert (A : argmin (N := XN) (map (fun a : XN => nabs XN (nsub XN a (Fin v))) (map Fin pre ++ NaN :: post)) = Ok (len pre)).
  { destruct pre as [|x pre]; cbn [map app argmin].
    - destruct (map (fun a : XN => nabs XN (nsub XN a (Fin v))) post); [reflexivity|]. cbn [argmin_go]. change (nabs XN (nsub XN NaN (Fin v))) with NaN. rewrite isnan_nan. reflexivity.
    - change (nabs XN (nsub XN (Fin x) (Fin v))) with (Fin (Rabs (x - v))). rewrite G. cbn. f_equal. }
  match goal with |- context [argmin ?l] => change (argmin l) with (argmin (N := XN) (map (fun a : XN => nabs XN (nsub XN a (Fin v))) (map Fin pre ++ NaN :: post))) end.
  rewrite A. cbn [bind]. f_equal. f_equal. apply nth_error_nth. nT. rewrite nth_error_app2; rewrite map_length; [|lia]. rewrite Nat.sub_diag. reflexivity.
Qed.

(** ** piecewise-linear interpolation *)
Definition incr (l : list R) : Prop := forall i j a b, nth_error l i = Some a -> nth_error l j = Some b -> (i < j)%nat -> a < b.
(** [v] is the value at [x] of the broken line through the points (xp,fp), extended by constants *)
Definition broken_line (xp fp : list R) (x v : R) : Prop :=
  (forall a f, nth_error xp 0 = Some a -> nth_error fp 0 = Some f -> x <= a -> v = f) /\
  (forall k a b f g, nth_error xp k = Some a -> nth_error xp (S k) = Some b -> nth_error fp k = Some f -> nth_error fp (S k) = Some g -> a <= x <= b ->
     v = f + (g - f) * ((x - a) / (b - a))) /\
  (forall k a f, S k = len xp -> nth_error xp k = Some a -> nth_error fp k = Some f -> a <= x -> v = f).
Lemma incr_tl a l : incr (a :: l) -> incr l.
Proof. intros H i j x y A B L. apply (H (S i) (S j)); auto. lia. Qed.
Lemma interp_go_fin xp : forall fp x, len xp = len fp -> incr xp -> (forall a, nth_error xp 0 = Some a -> a <= x) -> xp <> [] ->
  exists v, interp_go (N := XN) (Fin x) (map Fin xp) (map Fin fp) = Fin v /\ broken_line xp fp x v.
Proof.
  induction xp as [|a xp IH]; intros fp x HL HI HX HN; [contradiction|]. destruct fp as [|f fp]; [discriminate|]. specialize (HX a eq_refl).
  destruct xp as [|b xp], fp as [|g fp]; try discriminate.
  - exists f. split; [reflexivity|]. repeat split; intros.
    + cbn in *. congruence. + destruct k; discriminate. + destruct k; [cbn in *; congruence|discriminate].
  - assert (AB : a < b) by (apply (HI 0%nat 1%nat); auto).
    cbn [map interp_go]. change (nlt XN (Fin x) (Fin b)) with (Rltb x b). destruct (Rltb_spec x b) as [C|C].
    + exists (f + (g - f) * ((x - a) / (b - a))). split.
      { xn. rewrite xdiv_fin by lra. xn. f_equal. field. lra. }
      split; [|split].
      * intros a' f' A B H. injection A as <-. injection B as <-. assert (x = a) as -> by lra. field. lra.
      * intros [|k] a' b' f' g' A B D E H; [cbn in *; congruence|]. exfalso. assert (b <= a'); [|lra].
        destruct k as [|k]; [cbn in A; injection A as ->; lra|]. left. apply (HI 1%nat (S (S k))); auto. lia.
      * intros k a' f' K A B H. exfalso. assert (b <= a'); [|lra]. destruct k as [|[|k]]; [discriminate|cbn in A; injection A as ->; lra|]. left. apply (HI 1%nat (S (S k))); auto. lia.
    + destruct (IH (g :: fp) x) as (v & E & B1 & B2 & B3); [cbn in *; lia|exact (incr_tl _ _ HI)|intros q Q; injection Q as <-; lra|discriminate|].
      exists v. split; [exact E|]. split; [|split].
      * intros a' f' A B H. injection A as <-. exfalso. lra.
      * intros [|k] a' b' f' g' A B D F H.
        { cbn in A, B, D, F. injection A as <-. injection B as <-. injection D as <-. injection F as <-. assert (x = b) as -> by lra. rewrite (B1 b g eq_refl eq_refl) by lra. field. lra. }
        { apply (B2 k a' b' f' g'); auto. }
      * intros [|k] a' f' K A B H; [discriminate|]. apply (B3 k a' f'); auto.
Qed.
Lemma np_interp_fin xs xp fp : len xp = len fp -> incr xp -> xp <> [] ->
  exists vs, np_interp (N := XN) (map Fin xs) (map Fin xp) (map Fin fp) = Ok (map Fin vs) /\ Forall2 (broken_line xp fp) xs vs.
Proof.
  intros HL HI HN. destruct xp as [|a xp]; [contradiction|]. destruct fp as [|f fp]; [discriminate|]. unfold np_interp. cbn [map].
  replace (Nat.eqb _ _) with true by (symmetry; apply Nat.eqb_eq; cbn in *; rewrite !map_length; lia).
  induction xs as [|x xs IH]; [exists []; split; [reflexivity|constructor]|]. destruct IH as (vs & E & F).
  assert (K : exists v, (if nlt XN (Fin x) (Fin a) then Fin f else interp_go (N := XN) (Fin x) (map Fin (a :: xp)) (map Fin (f :: fp))) = Fin v /\ broken_line (a :: xp) (f :: fp) x v).
  { change (nlt XN (Fin x) (Fin a)) with (Rltb x a). destruct (Rltb_spec x a) as [C|C]; [|apply interp_go_fin; auto; intros q Q; injection Q as <-; lra].
    assert (GE : forall k q, nth_error (a :: xp) k = Some q -> a <= q) by (intros [|k] q Q; [injection Q as <-; lra|left; apply (HI 0%nat (S k)); auto; lia]).
    exists f. split; [reflexivity|]. split; [|split].
    - intros a' f' A B _. injection B as <-. reflexivity.
    - intros k a' b' f' g' A _ _ _ H. apply GE in A. lra.
    - intros k a' f' _ A _ H. apply GE in A. lra. }
  destruct K as (v & E1 & B). exists (v :: vs). apply Ok_inj in E. split; [|constructor; auto]. cbn [map]. f_equal. f_equal; [exact E1|exact E].
Qed.
(** the broken line passes through its points *)
Lemma broken_node xp fp k a f v : len xp = len fp -> incr xp -> nth_error xp k = Some a -> nth_error fp k = Some f -> broken_line xp fp a v -> v = f.
Proof.
  intros HL HI A F (B1 & B2 & B3). assert (K : (k < len xp)%nat) by (apply nth_error_Some; congruence).
  destruct (nth_error xp (S k)) as [b|] eqn:EB.
  - destruct (nth_error fp (S k)) as [g|] eqn:EG; [|apply nth_error_None in EG; assert (S k < len xp)%nat by (apply nth_error_Some; congruence); lia].
    assert (a < b) by (apply (HI k (S k)); auto). rewrite (B2 k a b f g) by (auto; lra). field. lra.
  - apply nth_error_None in EB. apply (B3 k a f); auto; [lia|lra].
Qed.

(** ** OutputAD *)
(** plane data: grid coordinates h (x or y) and z, increasing, field w z h *)
Definition plane (hs zs : list R) (w : nat -> nat -> R) : adplane XN :=
  {| ad_h := map Fin hs : list XN; ad_z := map Fin zs : list XN; ad_W := map (fun iz => map (fun ih => Fin (w iz ih) : XN) (seq 0 (len hs))) (seq 0 (len zs)) |}.
Lemma incr_nodup l : incr l -> NoDup l.
Proof.
  intros H. apply NoDup_nth_error. intros i j Hi E. destruct (nth_error l i) as [a|] eqn:A; [|apply nth_error_None in A; lia]. symmetry in E.
  destruct (Nat.lt_trichotomy i j) as [L|[L|L]]; auto; exfalso; [pose proof (H i j a a A E L)|pose proof (H j i a a E A L)]; lra.
Qed.
Lemma plane_row hs zs w iz : (iz < len zs)%nat -> nth iz (ad_W (plane hs zs w)) [] = map (fun ih => Fin (w iz ih) : XN) (seq 0 (len hs)).
Proof. intros H. apply nth_error_nth. cbn [plane ad_W]. rewrite nth_error_map, nth_error_seq0. replace (Nat.ltb iz (len zs)) with true by (symmetry; apply Nat.ltb_lt; auto). reflexivity. Qed.
Lemma plane_entry hs zs w iz ih : (iz < len zs)%nat -> (ih < len hs)%nat -> entry (ad_W (plane hs zs w)) iz ih = Fin (w iz ih).
Proof.
  intros H1 H2. unfold entry. rewrite plane_row by auto. apply nth_error_nth. nT. rewrite nth_error_map, nth_error_seq0. replace (Nat.ltb ih (len hs)) with true by (symmetry; apply Nat.ltb_lt; auto). reflexivity.
Qed.
(** nearest node *)
Definition nearest (l : list R) (v : R) (k : nat) : Prop := exists d, first_min (distances l v) k d.
Lemma nearest_lt l v k : nearest l v k -> (k < len l)%nat.
Proof. intros (d & A & _). assert (K : (k < len (distances l v))%nat) by (apply nth_error_Some; congruence). unfold distances in K. rewrite map_length in K. exact K. Qed.
Lemma find_nearest_is l v : l <> [] -> exists k x, find_nearest (N := XN) (map Fin l) (Fin v) = Ok (Fin x : XN, k) /\ nearest l v k.
Proof. intros H. destruct (C109_find_nearest l v H) as (k & x & d & E & _ & _ & F). exists k, x. split; auto. exists d; auto. Qed.
Theorem C109_centre_and_lines : forall hs zs w, hs <> [] -> zs <> [] -> incr hs -> incr zs ->
  exists ih iz, nearest hs 0 ih /\ nearest zs 0 iz /\
    fCenter (plane hs zs w) = Ok (Fin (w iz ih) : XN) /\
    (forall zq, exists vs, ad_fAxial (plane hs zs w) (map Fin zq) = Ok (map Fin vs : list XN) /\
       Forall2 (broken_line zs (map (fun iz => w iz ih) (seq 0 (len zs)))) zq vs) /\
    (forall rq z0, exists jz vs, nearest zs z0 jz /\ ad_fRadial (plane hs zs w) (map Fin rq) (Fin z0) = Ok (map Fin vs : list XN) /\
       Forall2 (broken_line hs (map (w jz) (seq 0 (len hs)))) rq vs).
Proof.
  intros hs zs w Hh Hz Ih Iz. destruct (find_nearest_is hs 0 Hh) as (ih & xh & Eh & Nh). destruct (find_nearest_is zs 0 Hz) as (iz & xz & Ez & Nz).
  exists ih, iz. split; auto. split; auto. pose proof (nearest_lt _ _ _ Nh) as Lh. pose proof (nearest_lt _ _ _ Nz) as Lz. split; [|split].
  - unfold fCenter. cbn [plane ad_h ad_z]. change (nZ XN 0) with (Fin 0 : XN). rewrite Eh, Ez. cbn [bind snd]. f_equal. apply (plane_entry hs zs w iz ih); auto.
  - intros zq. unfold ad_fAxial. cbn [plane ad_h ad_z]. change (nZ XN 0) with (Fin 0 : XN). rewrite Eh. cbn [bind snd].
    destruct (np_interp_fin zq zs (map (fun iz => w iz ih) (seq 0 (len zs)))) as (vs & E & F); auto; [rewrite map_length, seq_length; auto|].
    exists vs. split; auto. etransitivity; [|exact E]. f_equal. cbn [plane ad_W]. rewrite !map_map. apply map_ext. intros k. apply nth_error_nth. nT. rewrite nth_error_map, nth_error_seq0.
    replace (Nat.ltb ih (len hs)) with true by (symmetry; apply Nat.ltb_lt; auto). reflexivity.
  - intros rq z0. destruct (find_nearest_is zs z0 Hz) as (jz & xj & Ej & Nj). pose proof (nearest_lt _ _ _ Nj) as Lj.
    destruct (np_interp_fin rq hs (map (w jz) (seq 0 (len hs)))) as (vs & E & F); auto; [rewrite map_length, seq_length; auto|].
    exists jz, vs. split; auto. split; auto. unfold ad_fRadial. cbn [plane ad_z]. rewrite Ej. cbn [bind snd]. etransitivity; [|exact E]. f_equal.
    etransitivity; [exact (plane_row hs zs w jz Lj)|]. rewrite map_map. reflexivity.
Qed.
(** when z=0 is a grid node the axial line of the data passes through fCenter, so the matched model and the data agree there exactly *)
Theorem C109_curves_meet : forall minim CT HH Lam Yaw U0 hs zs w uc VC zq i, hs <> [] -> zs <> [] -> incr hs -> incr zs -> In 0 zs ->
  fCenter (plane hs zs w) = Ok (Fin uc : XN) ->
  setupModel (N := XN) minim (Fin CT) (Fin HH) Lam (Fin Yaw) (Some (Fin uc)) (Fin U0) None "VC" = Ok VC -> CT <= 1 -> clear_case CT HH Yaw ->
  nth_error zq i = Some 0 ->
  exists vs us u, ad_fAxial (plane hs zs w) (map Fin zq) = Ok (map Fin vs : list XN) /\ nth_error vs i = Some uc /\
    snd (vc_fAxial VC (map Fin zq)) = Ok us /\ nth_error us i = Some (lift3 u) /\ pz u = uc.
Proof.
  intros minim CT HH Lam Yaw U0 hs zs w uc VC zq i Hh Hz Ih Iz H0 EC ES HC HG Hi.
  destruct (C109_centre_and_lines hs zs w Hh Hz Ih Iz) as (ih & iz & Nh & Nz & E & A & _). rewrite E in EC. injection EC as EC.
  destruct (A zq) as (vs & EV & F). destruct (Forall2_nth _ _ _ _ _ F Hi) as (v & V1 & V2).
  destruct (C107_matches_centre_velocity minim CT HH Lam Yaw U0 uc VC ES HC HG zq i Hi) as (us & u & U1 & U2 & U3).
  exists vs, us, u. split; auto. split; auto. rewrite V1. f_equal. rewrite <- EC.
  apply In_nth_error in H0. destruct H0 as (k & Hk). assert (k = iz) as ->.
  { pose proof (C109_find_exact zs k 0 Hk (incr_nodup _ Iz)) as Q. destruct (C109_find_nearest zs 0 Hz) as (k' & x & d & Q1 & _ & _ & Q2). rewrite Q1 in Q. injection Q as _ ->.
    destruct Nz as (d' & Q3). exact (proj1 (first_min_inj _ _ _ _ _ Q2 Q3)). }
  apply (broken_node zs (map (fun iz => w iz ih) (seq 0 (len zs))) iz 0); auto; [rewrite map_length, seq_length; auto|].
  rewrite nth_error_map, nth_error_seq0. replace (Nat.ltb iz (len zs)) with true by (symmetry; apply Nat.ltb_lt; apply (nearest_lt _ _ _ Nz)). reflexivity.
Qed.
Example C109_case : incr [-2; 0; 3/2] /\ In 0 [-2; 0; 3/2] /\ nearest [-2; 0; 3/2] 0 1.
Proof.
  split; [|split; [right; left; auto|]].
  - intros [|[|[|i]]] [|[|[|j]]] a b A B L; try lia; try (destruct i; discriminate); try (destruct j; discriminate); cbn in A, B; injection A as <-; injection B as <-; lra.
  - exists 0. unfold distances; cbn [map]. rewrite (Rabs_left (-2 - 0)), (Rabs_right (3/2 - 0)) by lra. replace (0 - 0) with 0 by ring. rewrite Rabs_R0. split; [reflexivity|].
    intros [|[|[|j]]] w E; try (destruct j; discriminate); cbn in E; injection E as <-; split; try lra; intros; lia.
Qed.
