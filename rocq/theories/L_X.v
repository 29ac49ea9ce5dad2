(** * Simplifying the extended-real instance on finite values *)
From Coq Require Import ZArith List Bool Arith Lia Reals Lra Psatz.
From Verif Require Import Num NumR NumX L_List.
Import ListNotations.
Local Open Scope R_scope.
Local Notation len := List.length.

Ltac xn := unfold sq, cube, pow4, pow5, pow6 in *;
  cbn [T nZ nQ nadd nsub nmul ndiv nopp nabs nsqrt npow nexp nlog ncosh ncos nsin natan nacos natan2 nsign npi
       ninf nnan nellipk nellipe nlt nle neqb nmax XN RN
       xadd xsub xmul xopp xabs xlt xle xeqb xmax xcos xsin xexp xcosh xatan2 xsign xatan] in *.
Ltac nT := change (T XN) with X in *.
Ltac xdivs tac := rewrite !xdiv_fin by tac.
Ltac xfin tac := xn; repeat (progress (first [rewrite xdiv_fin by tac | rewrite xsqrt_fin by tac]; xn)).

Definition lsum (l : list R) : R := fold_right Rplus 0 l.
Lemma fold_nadd_fin l a : fold_left (nadd XN) (map Fin l) (Fin a) = Fin (a + lsum l).
Proof.
  revert a. induction l as [|x l IH]; intros a; cbn [map fold_left lsum fold_right].
  - f_equal. ring.
  - change (nadd XN (Fin a) (Fin x)) with (Fin (a + x)). rewrite IH. f_equal. unfold lsum. ring.
Qed.
Lemma nsum_fin l : nsum (N := XN) (map Fin l) = Fin (lsum l).
Proof. unfold nsum. change (nZ XN 0) with (Fin 0). rewrite fold_nadd_fin. f_equal. ring. Qed.
Lemma lsum_app l m : lsum (l ++ m) = lsum l + lsum m.
Proof. induction l as [|x l IH]; [change (lsum m = 0 + lsum m); ring|]. change (x + lsum (l ++ m) = x + lsum l + lsum m). rewrite IH. ring. Qed.
Lemma lsum_rev l : lsum (rev l) = lsum l.
Proof. induction l as [|x l IH]; [reflexivity|]. cbn [rev]. rewrite lsum_app, IH. change (lsum l + (x + 0) = x + lsum l). ring. Qed.
Lemma map2_fin (f : X -> X -> X) (g : R -> R -> R) (l m : list R) :
  (forall i a b, nth_error l i = Some a -> nth_error m i = Some b -> f (Fin a) (Fin b) = Fin (g a b)) ->
  map2 f (map Fin l) (map Fin m) = map Fin (map2 g l m).
Proof.
  revert m. induction l as [|a l IH]; intros [|b m] H; cbn [map map2]; auto.
  rewrite (H 0%nat a b) by reflexivity. f_equal. apply IH. intros i x y Hx Hy. apply (H (S i)); auto.
Qed.
Lemma map_fin (f : X -> X) (g : R -> R) (l : list R) :
  (forall a, In a l -> f (Fin a) = Fin (g a)) -> map f (map Fin l) = map Fin (map g l).
Proof. intros H. rewrite !map_map. apply map_ext_in. auto. Qed.
Lemma map_fin_inj (l m : list R) : map Fin l = map Fin m -> l = m.
Proof.
  revert m; induction l as [|a l IH]; intros [|b m] H; try discriminate; auto.
  injection H; intros H1 H2. f_equal; auto.
Qed.
Lemma amax_fin l : l <> [] -> exists M, amax (N := XN) (map Fin l) = Fin M /\ In M l /\ forall x, In x l -> x <= M.
Proof.
  destruct l as [|a l]; [congruence|]. intros _. cbn [map amax].
  assert (K : forall l a, exists M, fold_left (nmax XN) (map Fin l) (Fin a) = Fin M /\ In M (a :: l) /\ forall x, In x (a :: l) -> x <= M).
  { clear. induction l as [|b l IH]; intros a; cbn [map fold_left].
    - exists a. repeat split; [now left|]. intros x [<-|[]]; lra.
    - change (nmax XN (Fin a) (Fin b)) with (Fin (Rmax a b)). destruct (IH (Rmax a b)) as (M & E & I & U).
      exists M. split; auto. split.
      + destruct I as [I|I]; [|right; now right]. subst M. unfold Rmax. destruct (Rle_dec a b); [right; now left|now left].
      + intros x Hx. pose proof (U (Rmax a b) (or_introl eq_refl)) as U0.
        pose proof (Rmax_l a b). pose proof (Rmax_r a b).
        destruct Hx as [<-|[<-|Hx]]; try lra. apply U. now right. }
  apply K.
Qed.
Lemma nth_In_R (l : list R) i : (i < len l)%nat -> In (nth i l 0) l.
Proof. apply nth_In. Qed.
Lemma Ok_inj {A} (a b : A) : Ok a = Ok b -> a = b.
Proof. intros H; injection H; auto. Qed.
