(** * C138: the loading arrays a turbine shares with its caller *)
From Coquelicot Require Import Coquelicot.
From Coq Require Import ZArith List Bool String Arith Lia Reals Lra Psatz.
From Verif Require Import Num NumR NumX Spec M_Elliptic M_Line M_Doublet M_Misc M_Cylinder M_Skewed
  M_Solver M_Turbine M_Farm M_AliasLoad L_List L_Calc L_Ell L_Cyl L_X L_Turbine L_State L_Farm L_Geom L_Angles L_TurbineX L_TurbineY L_Multi L_Built L_Solver
  P_Turbine P_Line P_Skewed P_Cylinder P_Cylinder2 P_Cylinder3 P_Grid P_Solver P_Loading P_Centre P_Swirl P_Profile P_Alias.
Import ListNotations.
Local Notation len := List.length.

(** ** Specification: value semantics.  Arrays of the program, and turbines that hold numbers.  An argument is worth
    what it contains when the call is made; writing an array changes that array and nothing else *)
Section Spec.
  Context {N : Num}.
  Definition contents (us : list (list N)) (a : option nat) : option (list N) :=
    match a with Some b => Some (nth b us []) | None => None end.
  Definition returned (us : list (list N)) (f : list N -> result (ret N)) (c : list N) : result (list N) :=
    match f c with
    | Ok RSame => Ok c
    | Ok (RNew l) => Ok l
    | Ok (RArr b) => if Nat.ltb b (len us) then Ok (nth b us []) else Err (ENameError "")
    | Err e => Err e
    end.
  Definition present (us : list (list N)) (a : option nat) : bool := match a with None => true | Some b => Nat.ltb b (len us) end.
  Definition lvstep (s : list (list N) * list (turbine N)) (o : lop N) : list (list N) * list (turbine N) :=
    let '(us, ts) := s in
    match o with
    | LNew R hub shaft vert wind Lambda name Ground Model => (us, ts ++ [new_turbine R hub shaft vert wind None Lambda name Ground Model])
    | LPos i p => (us, at_object i (fun t => update_position t p) ts)
    | LWind i p => (us, at_object i (fun t => update_wind t p) ts)
    | LYaw i yaw => (us, at_object i (fun t => update_yaw_pos t yaw) ts)
    | LChi i chi => (us, at_object i (fun t => set_chi t chi) ts)
    | LCompute i o pts => (us, at_object i (fun t => fst (compute_u t o pts)) ts)
    | LLoad i minim r Ct Gamma Lambda nCyl f =>
        (us, if present us r && present us Ct && present us Gamma
             then at_object i (fun t => fst (update_loading minim (contents us r) (contents us Ct) (contents us Gamma) Lambda nCyl
                                                            (match f with Some f => Some (returned us f) | None => None end) t)) ts
             else ts)
    | LArray l => (us ++ [l], ts)
    | LWrite b k x => (upd us b (upd (nth b us []) k x), ts)
    end.
  Definition lvrun (p : list (lop N)) : list (list N) * list (turbine N) := fold_left lvstep p ([], []).

  (** the library may keep array [b]: radii or thrust given with nCyl=None, or the array a gamma_t_Ct function returns *)
  Definition may_keep (b : nat) (o : lop N) : Prop :=
    match o with
    | LLoad _ _ r Ct _ _ nCyl f =>
        (nCyl = None /\ (r = Some b \/ Ct = Some b)) \/ (exists g c, f = Some g /\ g c = Ok (RArr b))
    | _ => False
    end.
End Spec.

Section Proofs.
  Context {N : Num}.
  Definition refs (c : lcell N) : list (option nat) := [l_r c; l_c c; l_g c].
  Definition uses (c : lcell N) (b : nat) : Prop := In (Some b) (refs c).
  Definition lwf (w : lworld N) : Prop := forall c b, In c (lw_wt w) -> uses c b -> (b < len (lw_arr w))%nat.
  Definition lsim (w : lworld N) (s : list (list N) * list (turbine N)) : Prop := lwf w /\ lw_arr w = fst s /\ lobjects w = snd s.

  Lemma lsee_ext us us' (c : lcell N) : (forall b, uses c b -> nth b us' [] = nth b us []) -> lsee us' c = lsee us c.
  Proof.
    intros H. unfold uses, refs in H. cbn in H. unfold lsee, attr. destruct c as [t [r|] [q|] [g|]]; cbn in *;
      rewrite ?(H _ (or_introl eq_refl)), ?(H _ (or_intror (or_introl eq_refl))), ?(H _ (or_intror (or_intror (or_introl eq_refl)))); reflexivity.
  Qed.
  Lemma lsee_self us (t : turbine N) r q g : (forall b, r = Some b -> t_r t = Some (nth b us [])) -> (forall b, q = Some b -> t_Ct t = Some (Some (nth b us []))) ->
    (forall b, g = Some b -> t_gt t = Some (nth b us [])) -> lsee us {| l_t := t; l_r := r; l_c := q; l_g := g |} = t.
  Proof.
    intros A B C. unfold lsee, attr. cbn [l_t l_r l_c l_g].
    destruct r as [r|]; [rewrite <- (A _ eq_refl)|]; (destruct q as [q|]; [rewrite <- (B _ eq_refl)|]); (destruct g as [g|]; [rewrite <- (C _ eq_refl)|]); destruct t; reflexivity.
  Qed.
  Lemma at_cell_objects us cs i (h : lcell N -> lcell N) g : (forall c, In c cs -> lsee us (h c) = g (lsee us c)) ->
    map (lsee us) (at_cell i h cs) = at_object i g (map (lsee us) cs).
  Proof.
    intros H. unfold at_cell, at_object. rewrite nth_error_map. destruct (nth_error cs i) as [c|] eqn:E; cbn [option_map]; [|reflexivity].
    rewrite upd_map, H by (eapply nth_error_In; eauto). reflexivity.
  Qed.
  Lemma at_cell_in cs i (h : lcell N -> lcell N) c : In c (at_cell i h cs) -> In c cs \/ exists c0, In c0 cs /\ c = h c0.
  Proof.
    unfold at_cell. destruct (nth_error cs i) as [c0|] eqn:E; [|auto]. intros H. apply In_nth_error in H. destruct H as [j H].
    assert (HJ : (j < len cs)%nat) by (rewrite <- (upd_length cs i (h c0)); apply nth_error_Some; congruence).
    pose proof (nth_error_nth _ _ c0 H) as E1. rewrite upd_nth in E1. destruct (andb _ _).
    - right. exists c0. split; [eapply nth_error_In; eauto|auto].
    - left. rewrite <- E1. apply nth_In. auto.
  Qed.
  Lemma on_lcell_sim w us ts i g : (forall t, t_r (g t) = t_r t /\ t_gt (g t) = t_gt t /\ t_Ct (g t) = t_Ct t) ->
    lsim w (us, ts) -> lsim (on_lcell w i g) (us, at_object i g ts).
  Proof.
    intros HG (W & U & O). cbn [fst snd] in *. subst us ts. split; [|split; [reflexivity|]].
    - intros c b Hc Hu. cbn [on_lcell lw_arr lw_wt] in *. apply at_cell_in in Hc. destruct Hc as [Hc|(c0 & Hc & ->)]; [eapply W; eauto|].
      apply (W c0); auto.
    - cbn [snd]. unfold lobjects, on_lcell. cbn [lw_arr lw_wt]. apply at_cell_objects. intros c _. destruct (HG (lsee (lw_arr w) c)) as (A & B & C).
      apply lsee_self; intros b E; rewrite ?A, ?B, ?C; unfold lsee, attr; cbn [t_r t_Ct t_gt]; rewrite E; reflexivity.
  Qed.
  (** what update_loading stores *)
  Lemma loading_stored minim r Ct G L n f (t : turbine N) :
    snd (update_loading minim r Ct G L n f t) = Ok tt ->
    exists r' c' g', load_interp (t_R t) r Ct G n = Ok (r', c', g') /\
      t_r (fst (update_loading minim r Ct G L n f t)) = r' /\ t_Ct (fst (update_loading minim r Ct G L n f t)) = Some c' /\
      (forall h, f = Some h -> exists c g, c' = Some c /\ h c = Ok g /\ t_gt (fst (update_loading minim r Ct G L n f t)) = Some g).
  Proof.
    unfold update_loading. unfold mbind at 1 3 5 7, mlift at 1 3 5 7.
    destruct (load_interp _ _ _ _ _) as [[[r' Ct'] G']|e']; [|discriminate].
    destruct (match L with Some l => Some l | None => t_Lambda t end) as [l|]; [|discriminate].
    intros H. exists r', Ct', G'. split; [reflexivity|]. revert H.
    unfold mbind, mlift, massign, mraise.
    destruct f as [f|].
    - destruct Ct' as [c|]; [|discriminate]. destruct (f c) as [g|e] eqn:E; [|discriminate]. intros _. repeat split.
      intros h EH. injection EH as <-. exists c, g. repeat split; auto.
    - destruct Ct' as [c|].
      + destruct (let* rr := need r' in _); [|discriminate]. intros _. repeat split. discriminate.
      + destruct G' as [g|]; [|discriminate]. destruct (let* rr := need r' in _); [|discriminate]. intros _. repeat split. discriminate.
  Qed.
  Lemma load_cell_spec us minim r Ct Gamma Lambda nCyl f (c : lcell N) : let c' := load_cell us minim r Ct Gamma Lambda nCyl f c in
    present us r = true -> present us Ct = true -> (forall b, uses c b -> (b < len us)%nat) ->
    lsee us c' = fst (update_loading minim (contents us r) (contents us Ct) (contents us Gamma) Lambda nCyl
                                     (match f with Some f => Some (returned us f) | None => None end) (lsee us c)) /\
    (forall b, uses c' b -> (b < len us)%nat /\ (uses c b \/ may_keep b (LLoad 0 minim r Ct Gamma Lambda nCyl f))).
  Proof.
    intros c' PR PC HU. unfold c', load_cell.
    change (arr_val us) with (contents us). change (option_map (cb_val us) f) with (match f with Some f => Some (returned us f) | None => None end).
    set (ff := match f with Some f => Some (returned us f) | None => None end).
    pose proof (loading_stored minim (contents us r) (contents us Ct) (contents us Gamma) Lambda nCyl ff (lsee us c)) as HS.
    pose proof (update_loading_atomic minim (contents us r) (contents us Ct) (contents us Gamma) Lambda nCyl ff (lsee us c)) as HA.
    destruct (update_loading _ _ _ _ _ _ _ _) as [t' [[]|e]]; cbn [fst snd] in *.
    - destruct (HS eq_refl) as (r' & q' & g' & EI & ER & EC & EF). clear HS HA.
      assert (KN : forall a : option nat, present us a = true -> forall b, a = Some b -> (b < len us)%nat) by (intros a K b ->; apply Nat.ltb_lt; exact K).
      assert (GR : forall b, cb_ref (t_R (lsee us c)) (contents us r) (contents us Ct) (contents us Gamma) nCyl Ct f = Some b ->
                 t_gt t' = Some (nth b us []) /\ (b < len us)%nat /\ may_keep b (LLoad 0 minim r Ct Gamma Lambda nCyl f)).
      { intros b. unfold cb_ref. rewrite EI. unfold ff in EF. destruct f as [h|]; [|discriminate]. destruct (EF _ eq_refl) as (q & g & -> & EG & ET).
        unfold returned in EG. destruct (h q) as [[|l|b']|e] eqn:EH; try discriminate.
        - destruct nCyl; [discriminate|]. injection EG as <-. cbn in EI. injection EI as _ EI _. intros ->. cbn in EI. injection EI as <-. split; [exact ET|].
          split; [apply (KN _ PC); auto|]. left. auto.
        - intros E. injection E as ->. destruct (Nat.ltb b (len us)) eqn:EL; [|discriminate]. injection EG as <-. split; [exact ET|].
          split; [apply Nat.ltb_lt; auto|]. right. eauto. }
      split.
      + apply lsee_self.
        * destruct nCyl; [discriminate|]. cbn in EI. injection EI as <- _ _. intros b ->. exact ER.
        * destruct nCyl; [discriminate|]. cbn in EI. injection EI as _ <- _. intros b ->. exact EC.
        * intros b E. apply GR. auto.
      + intros b [E|[E|[E|[]]]]; cbn [l_r l_c l_g] in E.
        * destruct nCyl; [discriminate|]. split; [apply (KN _ PR); auto|]. right. left. auto.
        * destruct nCyl; [discriminate|]. split; [apply (KN _ PC); auto|]. right. left. auto.
        * destruct (GR b E) as (_ & X & Y). auto.
    - rewrite (HA e eq_refl). split.
      + apply lsee_self; intros b E; unfold lsee, attr; cbn [t_r t_Ct t_gt]; rewrite E; reflexivity.
      + intros b Hb. split; [apply HU; exact Hb|left; exact Hb].
  Qed.
  Lemma lstep_sim w us ts o : (forall b k x, o = LWrite b k x -> forall c, In c (lw_wt w) -> ~ uses c b) ->
    lsim w (us, ts) -> lsim (lstep w o) (lvstep (us, ts) o).
  Proof.
    intros HW S. pose proof S as (W & U & O). cbn [fst snd] in U, O.
    destruct o as [R0 hub shaft vert wind Lambda name Ground Model|i p|i p|i yaw|i chi|i o pts|i minim r Ct Gamma Lambda nCyl f|l|b k x]; cbn [lstep lvstep].
    - subst us ts. split; [|split; [reflexivity|]].
      + intros c b Hc Hu. cbn [lw_arr lw_wt] in *. apply in_app_iff in Hc. destruct Hc as [Hc|[<-|[]]]; [eapply W; eauto|].
        destruct Hu as [E|[E|[E|[]]]]; discriminate.
      + unfold lobjects. cbn [lw_arr lw_wt snd]. rewrite map_app. reflexivity.
    - apply on_lcell_sim; [|exact S]. intros t; repeat split.
    - apply on_lcell_sim; [|exact S]. intros t; repeat split.
    - apply on_lcell_sim; [|exact S]. intros t; repeat split.
    - apply on_lcell_sim; [|exact S]. intros t; repeat split.
    - apply on_lcell_sim; [|exact S]. intros t. rewrite compute_u_fst. repeat split.
    - subst us ts. cbn [forallb]. change (lknown (lw_arr w)) with (present (lw_arr w)).
      rewrite andb_true_r. destruct (present (lw_arr w) r) eqn:PR; cbn [andb]; [|exact S]. destruct (present (lw_arr w) Ct) eqn:PC; cbn [andb]; [|exact S].
      destruct (present (lw_arr w) Gamma) eqn:PG; [|exact S]. split; [|split; [reflexivity|]].
      + intros c b Hc Hu. cbn [lw_arr lw_wt] in *. apply at_cell_in in Hc. destruct Hc as [Hc|(c0 & Hc & ->)]; [eapply W; eauto|].
        apply (proj2 (load_cell_spec (lw_arr w) minim r Ct Gamma Lambda nCyl f c0 PR PC (fun b => W c0 b Hc)) b Hu).
      + cbn [snd]. unfold lobjects. cbn [lw_arr lw_wt]. apply at_cell_objects. intros c Hc.
        apply (proj1 (load_cell_spec (lw_arr w) minim r Ct Gamma Lambda nCyl f c PR PC (fun b => W c b Hc))).
    - subst us ts. split; [|split; [reflexivity|]].
      + intros c b Hc Hu. cbn [lw_arr lw_wt] in *. rewrite app_length. pose proof (W c b Hc Hu). lia.
      + unfold lobjects. cbn [lw_arr lw_wt snd]. apply map_ext_in. intros c Hc. apply lsee_ext. intros b Hb. rewrite app_nth1; auto. eapply W; eauto.
    - subst us ts. split; [|split; [reflexivity|]].
      + intros c b' Hc Hu. cbn [lw_arr lw_wt] in *. rewrite upd_length. eapply W; eauto.
      + unfold lobjects. cbn [lw_arr lw_wt snd]. apply map_ext_in. intros c Hc. apply lsee_ext. intros b' Hb. rewrite upd_nth.
        destruct (Nat.eqb_spec b b') as [->|]; [|reflexivity]. exfalso. exact (HW b' k x eq_refl c Hc Hb).
  Qed.
  Lemma lrun_snoc p (o : lop N) : lrun (p ++ [o]) = lstep (lrun p) o.
  Proof. unfold lrun. rewrite fold_left_app. reflexivity. Qed.
  Lemma lvrun_snoc p (o : lop N) : lvrun (p ++ [o]) = lvstep (lvrun p) o.
  Proof. unfold lvrun. rewrite fold_left_app. reflexivity. Qed.
  Lemma lrun_sim (p : list (lop N)) :
    (forall pre b k x post, p = pre ++ LWrite b k x :: post -> forall c, In c (lw_wt (lrun pre)) -> ~ uses c b) -> lsim (lrun p) (lvrun p).
  Proof.
    induction p as [|o p IH] using rev_ind; intros H.
    - split; [intros c b []|]. split; reflexivity.
    - rewrite lrun_snoc, lvrun_snoc. assert (S : lsim (lrun p) (lvrun p)).
      { apply IH. intros pre b k x post E. apply (H pre b k x (post ++ [o])). rewrite E, <- app_assoc. reflexivity. }
      destruct (lvrun p) as [us ts]. apply lstep_sim; auto. intros b k x E. apply (H p b k x []). rewrite E. reflexivity.
  Qed.
  (** wf alone, and which operation an array in use was kept by *)
  Lemma lrun_uses (p : list (lop N)) : lwf (lrun p) /\ forall c b, In c (lw_wt (lrun p)) -> uses c b -> exists o, In o p /\ may_keep b o.
  Proof.
    induction p as [|o p [W K]] using rev_ind; [split; intros c b []|]. rewrite lrun_snoc.
    assert (OLD : forall c b, In c (lw_wt (lrun p)) -> uses c b -> exists o0, In o0 (p ++ [o]) /\ may_keep b o0).
    { intros c b Hc Hu. destruct (K c b Hc Hu) as (o0 & A & B). exists o0. rewrite in_app_iff. auto. }
    assert (ON : forall i g, lwf (on_lcell (lrun p) i g) /\ forall c b, In c (lw_wt (on_lcell (lrun p) i g)) -> uses c b -> exists o0, In o0 (p ++ [o]) /\ may_keep b o0).
    { intros i g. assert (G : forall c b, In c (lw_wt (on_lcell (lrun p) i g)) -> uses c b -> exists c0, In c0 (lw_wt (lrun p)) /\ uses c0 b).
      { intros c b Hc Hu. cbn [on_lcell lw_wt] in Hc. apply at_cell_in in Hc. destruct Hc as [Hc|(c0 & Hc & ->)]; eauto. }
      split; intros c b Hc Hu; destruct (G c b Hc Hu) as (c0 & A & B); [apply (W c0); auto|eapply OLD; eauto]. }
    destruct o as [R0 hub shaft vert wind Lambda name Ground Model|i q|i q|i yaw|i chi|i o pts|i minim r Ct Gamma Lambda nCyl f|l|b0 k x]; cbn [lstep]; auto.
    - split; intros c b Hc Hu; cbn [lw_arr lw_wt] in *; apply in_app_iff in Hc; destruct Hc as [Hc|[<-|[]]]; eauto;
        destruct Hu as [E|[E|[E|[]]]]; discriminate.
    - cbn [forallb]. change (lknown (lw_arr (lrun p))) with (present (lw_arr (lrun p))).
      rewrite andb_true_r. destruct (present (lw_arr (lrun p)) r) eqn:PR; cbn [andb]; [|auto]. destruct (present (lw_arr (lrun p)) Ct) eqn:PC; cbn [andb]; [|auto].
      destruct (present (lw_arr (lrun p)) Gamma) eqn:PG; [|auto].
      assert (G : forall c b, In c (at_cell i (load_cell (lw_arr (lrun p)) minim r Ct Gamma Lambda nCyl f) (lw_wt (lrun p))) -> uses c b ->
                (b < len (lw_arr (lrun p)))%nat /\ exists o0, In o0 (p ++ [LLoad i minim r Ct Gamma Lambda nCyl f]) /\ may_keep b o0).
      { intros c b Hc Hu. apply at_cell_in in Hc. destruct Hc as [Hc|(c0 & Hc & ->)]; [split; eauto|].
        destruct (proj2 (load_cell_spec (lw_arr (lrun p)) minim r Ct Gamma Lambda nCyl f c0 PR PC (fun b => W c0 b Hc)) b Hu) as (A & [B|B]).
        - split; eauto.
        - split; auto. eexists. split; [apply in_app_iff; right; left; reflexivity|exact B]. }
      split; intros c b Hc Hu; cbn [lw_arr lw_wt] in *; apply (G c b Hc Hu).
    - split; auto. intros c b Hc Hu. cbn [lw_arr lw_wt] in *. rewrite app_length. pose proof (W c b Hc Hu). lia.
    - split; auto. intros c b Hc Hu. cbn [lw_arr lw_wt] in *. rewrite upd_length. eapply W; eauto.
  Qed.
End Proofs.

(** ** C138 *)
(** A program that never writes an array the library may have kept is described by the value semantics of the rest of this development: same
    arrays, and turbines with the same attributes (as seen by all the methods) *)
Theorem C138_value_semantics_partial : forall (N : Num) (p : list (lop N)),
  (forall pre b k x post, p = pre ++ LWrite b k x :: post -> forall o, In o pre -> ~ may_keep b o) ->
  lw_arr (lrun p) = fst (lvrun p) /\ lobjects (lrun p) = snd (lvrun p).
Proof.
  intros N p H. refine (proj2 (lrun_sim p _)). intros pre b k x post E c Hc Hu.
  destruct (proj2 (lrun_uses pre) c b Hc Hu) as (o & A & B). exact (H pre b k x post E o A B).
Qed.
(** In particular when every loading gives nCyl (the default is 1) and gamma_t_Ct returns the array it is given or a new one, the program may write
    any of its arrays at any time *)
Theorem C138_nCyl_given : forall (N : Num) (p : list (lop N)),
  (forall i minim r Ct Gamma Lambda nCyl f, In (LLoad i minim r Ct Gamma Lambda nCyl f) p ->
     nCyl <> None /\ forall g c b, f = Some g -> g c <> Ok (RArr b)) ->
  lw_arr (lrun p) = fst (lvrun p) /\ lobjects (lrun p) = snd (lvrun p).
Proof.
  intros N p H. apply C138_value_semantics_partial. intros pre b k x post E o Ho HK. destruct o; try contradiction.
  destruct (H i minim r Ct Gamma Lambda nCyl f) as [A B]; [rewrite E; apply in_app_iff; auto|].
  destruct HK as [[HK _]|(g & c & E1 & E2)]; [contradiction|]. exact (B g c b E1 E2).
Qed.
(** What any write does to any turbine: the entry is replaced in those of r, Ct and gamma_t that are that array; all the other attributes are
    unchanged *)
Definition written {N : Num} (ref : option nat) (b k : nat) (x : N) (l : list N) : list N :=
  match ref with Some b' => if Nat.eqb b' b then upd l k x else l | None => l end.
Theorem C138_write_effect : forall (N : Num) (p : list (lop N)) b k x i c t,
  nth_error (lw_wt (lrun p)) i = Some c -> nth_error (lobjects (lrun p)) i = Some t ->
  nth_error (lobjects (lrun (p ++ [LWrite b k x]))) i =
    Some (mkT (t_R t) (t_rhub t) (t_shaft t) (t_shaft0 t) (t_vert t) (t_horz t) (t_TF2g t) (t_Tc2wt t) (t_Twt2g t) (t_yaw t) (t_U0 t)
              (option_map (written (l_r c) b k x) (t_r t)) (option_map (written (l_g c) b k x) (t_gt t)) (t_gl t) (t_Gr t) (t_Lambda t)
              (t_ground t) (t_chi t) (t_model t) (option_map (option_map (written (l_c c) b k x)) (t_Ct t)) (t_name t)).
Proof.
  intros N p b k x i c t Hc Ht. rewrite lrun_snoc. unfold lobjects in *. cbn [lstep lw_arr lw_wt]. rewrite nth_error_map, Hc in *. cbn [option_map] in *.
  injection Ht as <-. f_equal. pose proof (proj1 (lrun_uses p)) as W.
  assert (G : forall b', uses c b' -> nth b' (upd (lw_arr (lrun p)) b (upd (nth b (lw_arr (lrun p)) []) k x)) [] =
            (if Nat.eqb b' b then upd (nth b' (lw_arr (lrun p)) []) k x else nth b' (lw_arr (lrun p)) [])).
  { intros b' Hu. rewrite upd_nth, (Nat.eqb_sym b' b). destruct (Nat.eqb_spec b b') as [->|]; [|reflexivity].
    rewrite (proj2 (Nat.ltb_lt _ _)); [reflexivity|]. eapply W; eauto. eapply nth_error_In; eauto. }
  unfold lsee, attr, uses, refs in *. destruct c as [t [r|] [q|] [g|]]; cbn in *;
    rewrite ?(G _ (or_introl eq_refl)), ?(G _ (or_intror (or_introl eq_refl))), ?(G _ (or_intror (or_intror (or_introl eq_refl)))); unfold written; cbn;
    rewrite ?option_map_id'; try (destruct (t_r t); destruct (t_gt t); destruct (t_Ct t) as [[|]|]); reflexivity.
Qed.
(** Which arrays those are, after a loading with nCyl=None and no gamma_t_Ct: r and Ct are the arrays given, gamma_t is the turbine's own; Gamma is
    never kept *)
Theorem C138_arrays_kept : forall (N : Num) (p : list (lop N)) i minim r Ct Gamma Lambda t t' b k x,
  (forall a, In a [r; Ct; Gamma] -> present (lw_arr (lrun p)) a = true) ->
  nth_error (lobjects (lrun p)) i = Some t ->
  let us := lw_arr (lrun p) in
  update_loading minim (contents us r) (contents us Ct) (contents us Gamma) Lambda None None t = (t', Ok tt) ->
  let q := p ++ [LLoad i minim r Ct Gamma Lambda None None] in
  nth_error (lobjects (lrun q)) i = Some t' /\
  nth_error (lobjects (lrun (q ++ [LWrite b k x]))) i =
    Some (mkT (t_R t') (t_rhub t') (t_shaft t') (t_shaft0 t') (t_vert t') (t_horz t') (t_TF2g t') (t_Tc2wt t') (t_Twt2g t') (t_yaw t') (t_U0 t')
              (option_map (written r b k x) (t_r t')) (t_gt t') (t_gl t') (t_Gr t') (t_Lambda t')
              (t_ground t') (t_chi t') (t_model t') (option_map (option_map (written Ct b k x)) (t_Ct t')) (t_name t')).
Proof.
  intros N p i minim r Ct Gamma Lambda t t' b k x HP Ht us EL q.
  unfold lobjects in Ht. rewrite nth_error_map in Ht. destruct (nth_error (lw_wt (lrun p)) i) as [c|] eqn:Hc; [|discriminate]. cbn [option_map] in Ht. injection Ht as Ht.
  pose proof (HP r ltac:(cbn; auto)) as PR. pose proof (HP Ct ltac:(cbn; auto)) as PC. pose proof (HP Gamma ltac:(cbn; auto)) as PG.
  assert (EQ : lrun q = {| lw_arr := us; lw_wt := upd (lw_wt (lrun p)) i {| l_t := t'; l_r := r; l_c := Ct; l_g := None |} |}).
  { unfold q. rewrite lrun_snoc. cbn [lstep forallb]. change (lknown (lw_arr (lrun p))) with (present (lw_arr (lrun p))). rewrite PR, PC, PG. cbn [andb].
    unfold at_cell. rewrite Hc. fold us. f_equal. f_equal. unfold load_cell. change (arr_val us) with (contents us). cbn [option_map]. fold us in Ht. rewrite Ht.
    rewrite EL. reflexivity. }
  assert (HQ : nth_error (lw_wt (lrun q)) i = Some {| l_t := t'; l_r := r; l_c := Ct; l_g := None |}).
  { rewrite EQ. cbn [lw_wt]. assert (HI : (i < len (lw_wt (lrun p)))%nat) by (apply nth_error_Some; congruence).
    rewrite (nth_error_nth' _ c) by (rewrite upd_length; auto). rewrite upd_nth, Nat.eqb_refl, (proj2 (Nat.ltb_lt _ _)) by auto. reflexivity. }
  assert (HO : nth_error (lobjects (lrun q)) i = Some t').
  { unfold lobjects. rewrite nth_error_map, HQ. cbn [option_map]. f_equal. rewrite EQ. cbn [lw_arr].
    pose proof (loading_stored minim (contents us r) (contents us Ct) (contents us Gamma) Lambda None None t) as S. rewrite EL in S.
    destruct (S eq_refl) as (r' & c' & g' & EI & ER & EC & _). cbn in EI. injection EI as <- <- <-. cbn [fst] in *.
    apply lsee_self; intros b' E; [rewrite E in ER; exact ER|rewrite E in EC; exact EC|discriminate]. }
  split; [exact HO|]. rewrite (C138_write_effect N q b k x i _ t' HQ HO). cbn [l_r l_c l_g]. f_equal.
  destruct (t_gt t'); reflexivity.
Qed.
(** The velocities do not depend on Ct, nor, with a single cylinder, on r: writing such an array changes no answer of compute_u *)
Theorem C138_answers_unchanged : forall (N : Num) (p : list (lop N)) b k x i t t',
  nth_error (lobjects (lrun p)) i = Some t -> nth_error (lobjects (lrun (p ++ [LWrite b k x]))) i = Some t' ->
  t_gt t' = t_gt t -> t_r t' = t_r t \/ (exists g, t_gt t = Some [g]) ->
  forall o pts, snd (compute_u t' o pts) = snd (compute_u t o pts).
Proof.
  intros N p b k x i t t' Ht Ht' EG ER o pts. pose proof Ht as Hc. unfold lobjects in Hc. rewrite nth_error_map in Hc.
  destruct (nth_error (lw_wt (lrun p)) i) as [c|] eqn:HC; [|discriminate]. rewrite (C138_write_effect N p b k x i c t HC Ht) in Ht'. injection Ht' as <-.
  cbn [t_gt t_r] in *. unfold compute_u. cbn [snd t_gt]. rewrite EG. destruct ER as [ER|[g ER]].
  - rewrite ER. reflexivity.
  - rewrite ER. reflexivity.
Qed.

(** ** What a written radius does *)
Fixpoint overwrite {N : Num} (b k : nat) (l : list N) : list (lop N) :=
  match l with [] => [] | x :: l' => LWrite b k x :: overwrite b (S k) l' end.
Lemma upd_app {A} (l l' : list A) a x : upd (l ++ a :: l') (len l) x = l ++ x :: l'.
Proof. induction l as [|b l IH]; cbn; [reflexivity|]. rewrite IH. reflexivity. Qed.
Lemma upd_upd {A} (l : list A) i a b : upd (upd l i a) i b = upd l i b.
Proof. revert i. induction l as [|c l IH]; intros [|i]; cbn; auto. rewrite IH. reflexivity. Qed.
Lemma run_overwrite {N : Num} b : forall (l pre old : list N) (w : lworld N), (b < len (lw_arr w))%nat -> nth b (lw_arr w) [] = pre ++ old -> len old = len l -> l <> [] ->
  fold_left lstep (overwrite b (len pre) l) w = {| lw_arr := upd (lw_arr w) b (pre ++ l); lw_wt := lw_wt w |}.
Proof.
  induction l as [|x l IH]; intros pre old w HB HN HL Hne; [congruence|]. destruct old as [|a old]; [discriminate|]. cbn [overwrite fold_left].
  set (w' := lstep w (LWrite b (len pre) x)). assert (EW : w' = {| lw_arr := upd (lw_arr w) b (pre ++ x :: old); lw_wt := lw_wt w |}).
  { unfold w'. cbn [lstep]. rewrite HN, upd_app. reflexivity. }
  destruct l as [|y l].
  - destruct old; [|discriminate]. exact EW.
  - replace (S (len pre)) with (len (pre ++ [x])) by (rewrite app_length; cbn; lia).
    rewrite (IH (pre ++ [x]) old); [|rewrite EW; cbn [lw_arr]; rewrite upd_length; auto| |cbn in *; lia|discriminate].
    + rewrite EW. cbn [lw_arr lw_wt]. rewrite upd_upd, <- app_assoc. reflexivity.
    + rewrite EW. cbn [lw_arr]. rewrite upd_nth, Nat.eqb_refl, (proj2 (Nat.ltb_lt _ _)) by auto. cbn [andb]. rewrite <- app_assoc. reflexivity.
Qed.

Lemma count_load {N : Num} (w : lworld N) i minim r Ct Gamma Lambda nCyl f : len (lw_wt (lstep w (LLoad i minim r Ct Gamma Lambda nCyl f))) = len (lw_wt w).
Proof.
  cbn [lstep]. destruct (forallb _ _); [|reflexivity]. cbn [lw_wt]. unfold at_cell. destruct (nth_error _ _); [apply upd_length|reflexivity].
Qed.
Lemma count_overwrite {N : Num} b : forall (l : list N) k (w : lworld N), lw_wt (fold_left lstep (overwrite b k l) w) = lw_wt w.
Proof. induction l as [|x l IH]; intros k w; [reflexivity|]. cbn [overwrite fold_left]. rewrite IH. reflexivity. Qed.
Lemma values_overwritten {N : Num} b : forall (l : list N) k s, snd (fold_left lvstep (overwrite b k l) s) = snd s.
Proof. induction l as [|x l IH]; intros k [us ts]; [reflexivity|]. cbn [overwrite fold_left]. rewrite IH. reflexivity. Qed.

Local Open Scope R_scope.
(** Circulations Gs given at the stations rs with nCyl=None; afterwards the array of the stations is overwritten with rs2 and nothing else is
    done.  The velocity at a point of the rotor plane between the new stations j-1 and j is the one solved for the old station j, and outside the
    last new station the rotor has no effect *)
Theorem C138_radii_overwritten : forall minim (p : list (lop XN)) i t sh v hub U Rr yaw b g rs Gs rs2 l,
  nth_error (lobjects (lrun p)) i = Some t -> built minim t sh v hub U Rr yaw -> 0 < Rr -> 0 < length3 U -> 0 < l < 20 ->
  (2 <= len rs)%nat -> len Gs = len rs -> increasing rs -> (forall x, In x rs -> 0 < x) ->
  nth_error (lw_arr (lrun p)) b = Some (map Fin rs : list XN) -> nth_error (lw_arr (lrun p)) g = Some (map Fin Gs : list XN) ->
  len rs2 = len rs -> increasing rs2 -> (forall x, In x rs2 -> 0 < x) ->
  let q := p ++ [LLoad i minim (Some b) None (Some g) (Some (Fin l : XN)) None None] in
  exists t' t2, nth_error (lobjects (lrun q)) i = Some t' /\ nth_error (lobjects (lrun (q ++ overwrite b 0 (map Fin rs2 : list XN)))) i = Some t2 /\
    forall (old : bool) o c (ps : list R3) k pt, tang_only o -> model_of t o = "VC"%string -> ground_on t o = false ->
      skew_is t sh v U yaw c -> Rabs c <= 1 / 10000000 -> nth_error ps k = Some pt ->
      let stations := if old then rs else rs2 in
      let shaft := rotate v yaw sh in let free := if o_only_ind o then zero else U in
      let r := length3 (sub3 pt hub) in
      inner (sub3 pt hub) shaft = 0 -> (forall x, In x stations -> off_rim x r) ->
      exists us w, snd (compute_u (if old then t' else t2) o (map lift3 ps)) = Ok us /\ nth_error us k = Some (lift3 w) /\
        (forall j, (j < len rs)%nat -> (forall m, (m < j)%nat -> nth m stations 0 < r) -> r < nth j stations 0 ->
           inner w shaft = inner free shaft - momentum_induction (Ct_eff Gs (mid_radii rs) (length3 U) (l * length3 U / Rr) 1 j) * length3 U) /\
        ((forall x, In x stations -> x < r) -> inner w shaft = inner free shaft).
Proof.
  intros minim p i t sh v hub U Rr yaw b g rs Gs rs2 l Ht HB hR hU Hl H2 HG HI Hp Hb Hg L2 HI2 Hp2 q. pose proof (built_WF _ _ _ _ _ _ _ _ HB) as H.
  destruct (load_profile minim t sh v hub U Rr yaw rs Gs l H hR hU Hl H2 HG HI Hp) as (t' & gb & gl & EL & E1 & L1 & E2 & L4 & E3 & E4 & E5 & E6 & EA).
  pose proof (nth_error_nth _ _ [] Hb) as Nb. pose proof (nth_error_nth _ _ [] Hg) as Ng.
  assert (Bb : (b < len (lw_arr (lrun p)))%nat) by (apply nth_error_Some; congruence). assert (Bg : (g < len (lw_arr (lrun p)))%nat) by (apply nth_error_Some; congruence).
  set (us := lw_arr (lrun p)) in *.
  pose proof Ht as HT. unfold lobjects in HT. rewrite nth_error_map in HT. destruct (nth_error (lw_wt (lrun p)) i) as [c0|] eqn:Hc; [|discriminate]. cbn [option_map] in HT. injection HT as HT. fold us in HT.
  assert (EQ : lrun q = {| lw_arr := us; lw_wt := upd (lw_wt (lrun p)) i {| l_t := t'; l_r := Some b; l_c := None; l_g := None |} |}).
  { unfold q. rewrite lrun_snoc. cbn [lstep forallb lknown]. fold us. rewrite (proj2 (Nat.ltb_lt _ _) Bb), (proj2 (Nat.ltb_lt _ _) Bg). cbn [andb].
    unfold at_cell. rewrite Hc. f_equal. f_equal. unfold load_cell, arr_val. cbn [option_map]. rewrite HT, Nb, Ng, EL. reflexivity. }
  assert (HI0 : (i < len (lw_wt (lrun p)))%nat) by (apply nth_error_Some; congruence).
  assert (NI : forall c, nth_error (upd (lw_wt (lrun p)) i c) i = Some c).
  { intros c. rewrite (nth_error_nth' _ c0) by (rewrite upd_length; auto). rewrite upd_nth, Nat.eqb_refl, (proj2 (Nat.ltb_lt _ _)) by auto. reflexivity. }
  pose proof (loading_stored minim (Some (map Fin rs : list XN)) None (Some (map Fin Gs : list XN)) (Some (Fin l : XN)) None None t) as S. rewrite EL in S.
  destruct (S eq_refl) as (r' & c' & g' & EI & _ & EC & _). injection EI as <- <- <-. cbn [fst] in EC.
  set (t2 := set_r t' (Some (map Fin rs2 : list XN))).
  exists t', t2. split; [|split].
  - unfold lobjects. rewrite nth_error_map, EQ. cbn [lw_wt lw_arr]. rewrite NI. cbn [option_map]. f_equal. apply lsee_self; try discriminate.
    intros b' E. injection E as <-. rewrite E3. f_equal. symmetry. exact Nb.
  - unfold lobjects, lrun. rewrite fold_left_app. fold (lrun q). rewrite EQ.
    pose proof (run_overwrite b (map Fin rs2 : list XN) [] (map Fin rs : list XN) {| lw_arr := us; lw_wt := upd (lw_wt (lrun p)) i {| l_t := t'; l_r := Some b; l_c := None; l_g := None |} |} Bb Nb) as RO.
    cbn [len lw_arr lw_wt app] in RO. rewrite RO; [|rewrite !map_length; auto|destruct rs2; [cbn in L2; lia|discriminate]].
    rewrite nth_error_map. cbn [lw_wt lw_arr]. rewrite NI. cbn [option_map]. f_equal. unfold lsee, attr. cbn [l_t l_r l_c l_g].
    rewrite upd_nth, Nat.eqb_refl, (proj2 (Nat.ltb_lt _ _)) by auto. cbn [andb]. reflexivity.
  - assert (HW : WF t' sh v hub U Rr yaw) by (replace t' with (fst (t', @Ok unit tt)) by reflexivity; rewrite <- EL; apply WF_load; auto).
    intros old o c ps k pt HO HM HN SK Hc' Hi stations shaft free r HP Hx.
    set (tt' := if old then t' else t2).
    assert (HW' : WF tt' sh v hub U Rr yaw) by (unfold tt'; destruct old; [exact HW|destruct HW; split; auto]).
    assert (FS : t_gt tt' = t_gt t' /\ t_r tt' = Some (map Fin stations : list XN) /\ t_gl tt' = t_gl t' /\ t_chi tt' = t_chi t' /\ t_ground tt' = t_ground t' /\ t_model tt' = t_model t')
      by (unfold tt', stations; destruct old; repeat split; auto).
    destruct FS as (F1 & F2 & F3 & F4 & F5 & F6).
    assert (LS : len stations = len rs) by (unfold stations; destruct old; auto).
    assert (IS : increasing stations) by (unfold stations; destruct old; auto).
    assert (PS : forall x, In x stations -> 0 < x) by (unfold stations; destruct old; auto).
    destruct (tang_several tt' sh v hub U Rr yaw c o ps k pt (map (fun g => g * length3 U) gb) stations HW' HO) as (us' & w & EU & NU & IW); auto.
    { unfold model_of in *. rewrite F6, E6. auto. } { unfold ground_on in *. rewrite F5, E5. auto. } { unfold skew_is in *. rewrite F4, E4. auto. }
    { rewrite F1. exact E1. } { exists gl. rewrite F3, LS. split; auto. } { rewrite map_length. lia. } { lia. }
    exists us', w. split; auto. split; auto. cbv zeta in IW. fold shaft free r in IW. split.
    + intros j Hj Hbj Ha. rewrite IW, (disks_in _ stations r j) by (try (rewrite map_length); auto; lia). rewrite sufs_scale, EA by auto. ring.
    + intros Ho. rewrite IW, disks_out by auto. ring.
Qed.
(** So the property fails: circulations of 300 and 100 m2/s are given at 20 and 40 m of a 50 m rotor; then the program divides its array of
    radii by the radius of the rotor, and calls nothing.  At 30 m from the hub the wind was slowed; now it is not *)
Definition kept_program minim : list (lop XN) :=
  [LArray (N := XN) (map Fin [20; 40]); LArray (N := XN) (map Fin [300; 100]);
   LNew (N := XN) (Fin 50) (lift3 (0, 0, 90)) (lift3 (1, 0, 0)) (lift3 (0, 0, 1)) (lift3 (wind (1,0,0) (0,0,1) 10 0 0)) (Some (Fin 8)) "" false "VC";
   LLoad (N := XN) 0 minim (Some 0%nat) None (Some 1%nat) (Some (Fin 8)) None None].
Definition divide_radii : list (lop XN) := overwrite (N := XN) 0 0 (map Fin [20 / 50; 40 / 50]).
Theorem C138_radii_written_refuted : forall minim, exists t t2 us us2 w,
  lobjects (lrun (kept_program minim)) = [t] /\ snd (lvrun (kept_program minim ++ divide_radii)) = [t] /\
  lobjects (lrun (kept_program minim ++ divide_radii)) = [t2] /\
  snd (compute_u t default_opts [lift3 (0, 30, 90)]) = Ok us /\ nth_error us 0 = Some (lift3 w) /\ px w < 10 /\
  snd (compute_u t2 default_opts [lift3 (0, 30, 90)]) = Ok us2 /\ exists w2, nth_error us2 0 = Some (lift3 w2) /\ px w2 = 10.
Proof.
  intros minim. pose proof PI_RGT_0 as HP. pose proof PI_4 as HP4.
  destruct (C132_case minim) as (B & TO & GO & OR & MR & K1 & K2 & CE).
  assert (HF : frame (1,0,0) (0,0,1)) by (repeat split; unfold unit3, perp, inner, px, py, pz; cbn [fst snd]; ring).
  assert (LU : length3 (wind (1,0,0) (0,0,1) 10 0 0) = 10).
  { unfold wind. rewrite rotate_frame by auto. unfold length3. transitivity (sqrt (10 * 10)); [f_equal|apply sqrt_square; lra]. rewrite cos_0, sin_0. unf; ring. }
  assert (SK : skew_is wt_sw (1,0,0) (0,0,1) (wind (1,0,0) (0,0,1) 10 0 0) 0 0) by (right; split; [reflexivity|]; exists 10, 0, 0; repeat split; lra).
  assert (RT : rotate (0,0,1) 0 (1,0,0) = (1, 0, 0)) by (rewrite rotate_frame by auto; rewrite cos_0, sin_0; apply eq3; unf; ring).
  assert (E1 : inner (sub3 (0, 30, 90) (0, 0, 90)) (rotate (0,0,1) 0 (1,0,0)) = 0) by (rewrite RT; unf; ring).
  assert (E2 : length3 (sub3 (0, 30, 90) (0, 0, 90)) = 30).
  { unfold length3. transitivity (sqrt (30 * 30)); [f_equal; unf; ring|apply sqrt_square; lra]. }
  assert (FR : inner (wind (1,0,0) (0,0,1) 10 0 0) (rotate (0,0,1) 0 (1,0,0)) = 10).
  { unfold wind. rewrite RT. unf. ring. }
  pose (p := firstn 3 (kept_program minim)).
  assert (HT : lobjects (lrun p) = [wt_sw]) by reflexivity.
  destruct (C138_radii_overwritten minim p 0%nat wt_sw (1,0,0) (0,0,1) (0,0,90) (wind (1,0,0) (0,0,1) 10 0 0) 50 0 0%nat 1%nat [20; 40] [300; 100] [20 / 50; 40 / 50] 8)
    as (t & t2 & N1 & N2 & HV); auto; try lra; try reflexivity; try (cbn; lia).
  { intros [|[|]] Hi; cbn in *; try lia; lra. } { intros x [<-|[<-|[]]]; lra. }
  { intros [|[|]] Hi; cbn in *; try lia; lra. } { intros x [<-|[<-|[]]]; lra. }
  rewrite LU in HV.
  change (p ++ [LLoad 0 minim (Some 0%nat) None (Some 1%nat) (Some (Fin 8 : XN)) None None]) with (kept_program minim) in *. fold divide_radii in N2.
  assert (ONE : forall q : list (lop XN), len (lw_wt (lrun q)) = 1%nat -> forall a, nth_error (lobjects (lrun q)) 0 = Some a -> lobjects (lrun q) = [a]).
  { intros q HL a Ha. assert (LQ : len (lobjects (lrun q)) = 1%nat) by (unfold lobjects; rewrite map_length; exact HL).
    destruct (lobjects (lrun q)) as [|a' [|]]; try discriminate. injection Ha as ->. reflexivity. }
  destruct (HV true default_opts 0 [(0, 30, 90)] 0%nat (0, 30, 90)) as (us & w & A1 & A2 & A3 & _); auto; try (rewrite Rabs_R0; lra).
  { rewrite E2. exact OR. }
  destruct (HV false default_opts 0 [(0, 30, 90)] 0%nat (0, 30, 90)) as (us2 & w2 & B1 & B2 & _ & B3); auto; try (rewrite Rabs_R0; lra).
  { rewrite E2. intros x [<-|[<-|[]]]; unfold off_rim; rewrite Rabs_right by lra; lra. }
  assert (O1 : lobjects (lrun (kept_program minim)) = [t]).
  { apply ONE; [|assumption]. change (kept_program minim) with (p ++ [LLoad 0 minim (Some 0%nat) None (Some 1%nat) (Some (Fin 8 : XN)) None None]).
    rewrite lrun_snoc, count_load. reflexivity. }
  exists t, t2, us, us2, w. split; [exact O1|]. split.
  { unfold lvrun, divide_radii. rewrite fold_left_app, values_overwritten. fold (lvrun (kept_program minim)).
    rewrite <- (proj2 (C138_value_semantics_partial XN (kept_program minim) ltac:(intros pre b k x post E; exfalso;
      assert (IN : In (LWrite b k x) (kept_program minim)) by (rewrite E; apply in_app_iff; right; left; reflexivity);
      destruct IN as [D|[D|[D|[D|[]]]]]; discriminate))). exact O1. }
  split.
  { apply ONE; [|assumption]. unfold lrun, divide_radii. rewrite fold_left_app, count_overwrite. fold (lrun (kept_program minim)).
    change (kept_program minim) with (p ++ [LLoad 0 minim (Some 0%nat) None (Some 1%nat) (Some (Fin 8 : XN)) None None]).
    rewrite lrun_snoc, count_load. reflexivity. }
  split; [exact A1|]. split; [exact A2|].
  assert (PX : forall a : R3, inner a (rotate (0,0,1) 0 (1,0,0)) = px a) by (intros a; rewrite RT; unf; ring).
  split; [|split; [exact B1|]; exists w2; split; [exact B2|]].
  - specialize (A3 1%nat ltac:(cbn; lia)). cbv iota in A3. rewrite E2, !PX in A3. specialize (A3 K1 K2). rewrite A3, <- PX.
    change (o_only_ind default_opts) with false. cbv iota. rewrite FR, MR.
    replace (8 * 10 / 50) with (8 / 5) by field. rewrite CE. set (ct := _ - 0).
    assert (CT : 0 < ct <= 8 / 10).
    { unfold ct. assert (I1 : 1 / 4 <= / PI) by (unfold Rdiv; rewrite Rmult_1_l; apply Rinv_le_contravar; lra).
      assert (I2 : / PI <= 1 / 3) by (unfold Rdiv; rewrite Rmult_1_l; apply Rinv_le_contravar; [lra|]; pose proof PI2_3_2; lra).
      replace (100 * 1 * (8 / 5) / (PI * 10 ^ 2)) with (8 / 5 * / PI) by (field; lra). set (ip := / PI) in *. nra. }
    unfold momentum_induction. destruct (Rlt_dec _ ct); [exfalso; lra|].
    assert (SQ : sqrt (1 - ct) < 1) by (rewrite <- sqrt_1 at 2; apply sqrt_lt_1; lra). lra.
  - rewrite E2 in B3. rewrite !PX in B3. rewrite B3; [|intros x [<-|[<-|[]]]; lra]. rewrite <- PX. exact FR.
Qed.
(** the hypotheses of C138_nCyl_given are met by a program that writes all its arrays after a loading with the default nCyl=1 *)
Example C138_case : forall minim,
  let p := [LArray (N := XN) (map Fin [20; 40]); LArray (N := XN) (map Fin [8 / 10; 7 / 10]);
            LNew (N := XN) (Fin 50) (lift3 (0, 0, 90)) (lift3 (1, 0, 0)) (lift3 (0, 0, 1)) (lift3 (wind (1,0,0) (0,0,1) 10 0 0)) (Some (Fin 8)) "" false "VC";
            LLoad (N := XN) 0 minim (Some 0%nat) (Some 1%nat) None None (Some 1%nat) (Some (fun _ => Ok (RSame (N := XN))));
            LWrite (N := XN) 0 0 (Fin 1); LWrite (N := XN) 1 1 (Fin 2)] in
  (forall i m r Ct Gamma Lambda nCyl f, In (LLoad i m r Ct Gamma Lambda nCyl f) p -> nCyl <> None /\ forall g c b, f = Some g -> g c <> Ok (RArr b)) /\
  exists t, lobjects (lrun p) = [t] /\ t_gt t = Some [np_mean (N := XN) (map Fin [8 / 10; 7 / 10])] /\ lw_arr (lrun p) = [map Fin [1; 40]; map Fin [8 / 10; 2]].
Proof.
  intros minim p. split.
  - intros i m r Ct Gamma Lambda nCyl f [E|[E|[E|[E|[E|[E|[]]]]]]]; try discriminate. injection E as <- <- <- <- <- <- <- <-. split; [discriminate|].
    intros g c b E'. injection E' as <-. discriminate.
  - eexists. split; [reflexivity|]. split; reflexivity.
Qed.
