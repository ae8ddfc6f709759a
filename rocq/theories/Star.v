(** Commutative rings with an involution: exact stand-in for real and complex arithmetic. *)
From Coq Require Import List ZArith Ring Ring_theory Arith Sorting.Permutation Lia.
From Verif Require Import BaseFacts.
Import ListNotations.

Record star_ring : Type := mkStar {
  car :> Type;
  s0 : car; s1 : car;
  sadd : car -> car -> car; smul : car -> car -> car;
  ssub : car -> car -> car; sopp : car -> car;
  sring : ring_theory s0 s1 sadd smul ssub sopp eq;
  sconj : car -> car;
  sconj_add : forall x y, sconj (sadd x y) = sadd (sconj x) (sconj y);
  sconj_mul : forall x y, sconj (smul x y) = smul (sconj x) (sconj y);
  sconj_inv : forall x, sconj (sconj x) = x }.
Arguments s0 {s}. Arguments s1 {s}. Arguments sadd {s}. Arguments smul {s}.
Arguments ssub {s}. Arguments sopp {s}. Arguments sconj {s}.

Declare Scope star_scope.
Delimit Scope star_scope with S.
Infix "+" := sadd : star_scope.
Infix "*" := smul : star_scope.
Infix "-" := ssub : star_scope.
Notation "- x" := (sopp x) : star_scope.

(** The integers with trivial conjugation *)
Definition Zstar : star_ring :=
  mkStar Z 0%Z 1%Z Z.add Z.mul Z.sub Z.opp InitialRing.Zth (fun x => x)
    (fun _ _ => eq_refl) (fun _ _ => eq_refl) (fun _ => eq_refl).

(** Gaussian integers *)
Local Open Scope Z_scope.
Definition G : Type := (Z * Z)%type.
Definition gadd (x y : G) : G := (fst x + fst y, snd x + snd y).
Definition gsub (x y : G) : G := (fst x - fst y, snd x - snd y).
Definition gopp (x : G) : G := (- fst x, - snd x).
Definition gmul (x y : G) : G := (fst x * fst y - snd x * snd y, fst x * snd y + snd x * fst y).
Definition gconj (x : G) : G := (fst x, - snd x).

Lemma gring : ring_theory (0, 0) (1, 0) gadd gmul gsub gopp eq.
Proof.
  split; intros; repeat match goal with x : (_ * _)%type |- _ => destruct x as [? ?] end;
    unfold gadd, gmul, gsub, gopp; cbn [fst snd]; apply pair_equal_spec; split; ring.
Qed.

Lemma gconj_add x y : gconj (gadd x y) = gadd (gconj x) (gconj y).
Proof. unfold gconj, gadd; cbn [fst snd]; apply pair_equal_spec; split; ring. Qed.
Lemma gconj_mul x y : gconj (gmul x y) = gmul (gconj x) (gconj y).
Proof. unfold gconj, gmul; cbn [fst snd]; apply pair_equal_spec; split; ring. Qed.
Lemma gconj_inv x : gconj (gconj x) = x.
Proof. destruct x; unfold gconj; cbn [fst snd]; apply pair_equal_spec; split; ring. Qed.

Definition Gstar : star_ring :=
  mkStar G (0, 0) (1, 0) gadd gmul gsub gopp gring gconj gconj_add gconj_mul gconj_inv.
Close Scope Z_scope.

(** ** finite sums *)
Section Sums.
Variable K : star_ring.
Add Ring Kring : (sring K).
Local Open Scope star_scope.

Fixpoint bsum {A : Type} (l : list A) (f : A -> K) : K :=
  match l with [] => s0 | x :: r => f x + bsum r f end.

Lemma sconj_0 : sconj s0 = @s0 K.
Proof.
  assert (E : sconj s0 + sconj s0 = @sconj K s0) by (rewrite <- sconj_add; f_equal; ring).
  transitivity (sconj s0 + sconj s0 - @sconj K s0); [ring|]. rewrite E. ring.
Qed.

Lemma bsum_ext {A} (l : list A) f g : (forall x, In x l -> f x = g x) -> bsum l f = bsum l g.
Proof.
  induction l; cbn; intros H; auto. rewrite H, IHl; auto. 
Qed.
Lemma bsum_0 {A} (l : list A) f : (forall x, In x l -> f x = s0) -> bsum l f = s0.
Proof. induction l; cbn; intros H; auto. rewrite H, IHl; auto. ring. Qed.
Lemma bsum_app {A} (l1 l2 : list A) f : bsum (l1 ++ l2) f = bsum l1 f + bsum l2 f.
Proof. induction l1; cbn; [ring|]. rewrite IHl1. ring. Qed.
Lemma bsum_map {A B} (g : A -> B) l f : bsum (map g l) f = bsum l (fun x => f (g x)).
Proof. induction l; cbn; auto. rewrite IHl; auto. Qed.
Lemma bsum_flat_map {A B} (g : A -> list B) l f : bsum (flat_map g l) f = bsum l (fun x => bsum (g x) f).
Proof. induction l; cbn; auto. rewrite bsum_app, IHl; auto. Qed.
Lemma bsum_add {A} (l : list A) f g : bsum l (fun x => f x + g x) = bsum l f + bsum l g.
Proof. induction l; cbn; [ring|]. rewrite IHl; ring. Qed.
Lemma bsum_mul_l {A} (l : list A) c f : c * bsum l f = bsum l (fun x => c * f x).
Proof. induction l; cbn; [ring|]. rewrite <- IHl; ring. Qed.
Lemma bsum_mul_r {A} (l : list A) c f : bsum l f * c = bsum l (fun x => f x * c).
Proof. induction l; cbn; [ring|]. rewrite <- IHl; ring. Qed.
Lemma bsum_conj {A} (l : list A) f : sconj (bsum l f) = bsum l (fun x => sconj (f x)).
Proof. induction l; cbn; [apply sconj_0|]. rewrite sconj_add, IHl; auto. Qed.
Lemma bsum_swap {A B} (l1 : list A) (l2 : list B) f :
  bsum l1 (fun x => bsum l2 (fun y => f x y)) = bsum l2 (fun y => bsum l1 (fun x => f x y)).
Proof.
  induction l1; cbn.
  - symmetry; apply bsum_0; auto.
  - rewrite IHl1, bsum_add; auto.
Qed.
Lemma bsum_perm {A} (l1 l2 : list A) f : Permutation l1 l2 -> bsum l1 f = bsum l2 f.
Proof. induction 1; cbn; [auto|rewrite IHPermutation; auto|ring|congruence]. Qed.
Lemma bsum_list_prod {A B} (l1 : list A) (l2 : list B) f :
  bsum (list_prod l1 l2) f = bsum l1 (fun x => bsum l2 (fun y => f (x, y))).
Proof. induction l1; cbn; auto. rewrite bsum_app, bsum_map, IHl1; auto. Qed.

(** a sum with a single nonzero term *)
Lemma bsum_single {A} (l : list A) f x : NoDup l -> In x l ->
  (forall y, In y l -> y <> x -> f y = s0) -> bsum l f = f x.
Proof.
  induction 1 as [|a l Ha Hl IH]; cbn; [tauto|]. intros [->|Hx] H0.
  - rewrite (bsum_0 l); [ring|]. intros y Hy. apply H0; auto. intros ->; auto.
  - rewrite IH; auto. rewrite (H0 a); auto; [ring|]. intros ->; auto.
Qed.

(** a function supported on a sub-list *)
Lemma bsum_support {A} (dec : forall x y : A, {x = y} + {x <> y}) (l s : list A) f :
  NoDup s -> NoDup l -> incl s l -> (forall x, In x l -> ~ In x s -> f x = s0) ->
  bsum l f = bsum s f.
Proof.
  intros Hs Hl Hi H0.
  set (r := filter (fun x => if in_dec dec x s then false else true) l).
  assert (HP : Permutation l (s ++ r)).
  { apply NoDup_Permutation; auto.
    - apply NoDup_app_intro; auto.
      + apply NoDup_filter; auto.
      + intros y Hy Hc. apply filter_In in Hc as [_ Hc]. destruct (in_dec dec y s); [discriminate|auto].
    - intros x. rewrite in_app_iff. unfold r. rewrite filter_In. split.
      + intros Hx. destruct (in_dec dec x s); auto.
      + intros [Hx|[Hx _]]; auto. }
  rewrite (bsum_perm _ _ f HP), bsum_app. rewrite (bsum_0 r); [ring|].
  intros x Hx. apply filter_In in Hx as [Hx Hx']. apply H0; auto.
  destruct (in_dec dec x s); [discriminate|auto].
Qed.
End Sums.
Arguments bsum {K A} l f.
