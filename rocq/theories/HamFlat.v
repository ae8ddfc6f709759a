(** Reading a flattened array in canonical order: lemmas. *)
From Coq Require Import List ZArith Bool Arith Lia Permutation Sorted.
From Verif Require Import Base Star AddrModel AddrSpec ExcModel ExcFacts UexcModel StdmModel StdmFacts StdmSum HamModel HamLoop.
Import ListNotations.
Local Open Scope nat_scope.

Lemma unravel_app s2 c : c < prodN s2 -> forall s1 a, a < prodN s1 -> unravel (s1 ++ s2) (a * prodN s2 + c) = unravel s1 a ++ unravel s2 c.
Proof.
  intros Hc. assert (Q0 : prodN s2 <> 0) by lia. induction s1 as [|d r IH]; intros a Ha.
  - cbn in Ha. replace a with 0 by lia. reflexivity.
  - cbn [app unravel]. assert (EP : prodN (r ++ s2) = prodN s2 * prodN r) by (clear; induction r as [|x r IH]; cbn; [lia|rewrite IH; lia]).
    assert (Ha' : a < d * prodN r) by exact Ha. assert (P0 : prodN r <> 0) by (intros E; rewrite E in Ha'; lia).
    rewrite EP. rewrite <- Nat.div_div by assumption. rewrite Nat.div_add_l by assumption. rewrite (Nat.div_small c) by assumption. rewrite Nat.add_0_r. f_equal.
    rewrite Nat.mod_mul_r by assumption. rewrite (Nat.add_comm (a * prodN s2) c), Nat.mod_add by assumption. rewrite Nat.mod_small by assumption.
    rewrite Nat.div_add by assumption. rewrite (Nat.div_small c) by assumption. cbn [Nat.add].
    rewrite (Nat.add_comm c), (Nat.mul_comm (prodN s2)). apply IH. apply Nat.mod_upper_bound. assumption.
Qed.
Lemma prodN_rev l : prodN (rev l) = prodN l.
Proof.
  assert (A : forall a b, prodN (a ++ b) = prodN a * prodN b) by (induction a as [|x a IH]; intros b; cbn; [lia|rewrite IH; lia]).
  induction l as [|x l IH]; [reflexivity|]. cbn [rev]. rewrite A, IH. cbn. lia.
Qed.
Lemma unravel_colmajor dims e : in_range dims e -> unravel (rev dims) (colmajor dims e) = rev e.
Proof.
  intros H. assert (B : forall dims e, in_range dims e -> colmajor dims e < prodN dims).
  { clear. induction 1 as [|d x dims e H1 H2 IH]; cbn; [lia|]. nia. }
  induction H as [|d x dims e H1 H2 IH]; [reflexivity|]. cbn [colmajor rev].
  replace (x + d * colmajor dims e) with (colmajor dims e * prodN [d] + x) by (cbn; lia).
  rewrite unravel_app; [|cbn; lia | rewrite prodN_rev; auto]. rewrite IH. f_equal. cbn [unravel]. change (prodN []) with 1. rewrite Nat.div_1_r, Nat.mod_small by assumption. reflexivity.
Qed.

Lemma SS_map {A B} (Q : A -> A -> Prop) (Q' : B -> B -> Prop) (f : A -> B) l : StronglySorted Q l -> (forall x y, In x l -> In y l -> Q x y -> Q' (f x) (f y)) -> StronglySorted Q' (map f l).
Proof.
  induction 1 as [|x l H1 IH H2]; intros H; cbn; constructor.
  - apply IH. intros; apply H; auto; now right.
  - rewrite Forall_forall in *. intros y Hy. apply in_map_iff in Hy as (z & <- & Hz). apply H; auto; [now left | now right].
Qed.
Lemma SS_rev {A} (Q : A -> A -> Prop) l : StronglySorted Q l -> StronglySorted (fun a b => Q b a) (rev l).
Proof.
  induction 1 as [|x l H1 IH H2]; cbn; [constructor|]. assert (S1 : forall (Q' : A -> A -> Prop) l y, StronglySorted Q' l -> Forall (fun z => Q' z y) l -> StronglySorted Q' (l ++ [y])).
  { clear. induction 1 as [|x l H1 IH H2]; intros F; cbn; [repeat constructor|]. inversion F; subst. constructor; [auto|]. apply Forall_app. split; [assumption|repeat constructor; assumption]. }
  apply S1; [exact IH|]. rewrite Forall_forall in *. intros y Hy. apply in_rev in Hy. auto.
Qed.
Lemma nth_seq_map (l : list nat) : map (fun i => nth i l 0) (seq 0 (length l)) = l.
Proof. apply (nth_ext _ _ 0 0); [now rewrite map_length, seq_length|]. intros i Hi. rewrite map_length, seq_length in Hi. rewrite (nth_indep _ 0 (nth 0 l 0)) by now rewrite map_length, seq_length. rewrite (map_nth (fun i => nth i l 0) _ 0). now rewrite seq_nth. Qed.
Definition sorting (ax : list nat) : list nat := argsort (fun i => Z.opp (Z.of_nat (nth i ax 0))) (length ax).
Lemma sorting_in ax i : In i (sorting ax) <-> i < length ax.
Proof.
  unfold sorting. split; intros H.
  - apply (Permutation_in _ (argsort_perm _ _)) in H. apply in_seq in H. lia.
  - apply (Permutation_in _ (Permutation_sym (argsort_perm _ _))), in_seq. lia.
Qed.
Lemma sorting_rev ax asc : StronglySorted lt asc -> NoDup ax -> Permutation asc ax -> map (fun i => nth i ax 0) (sorting ax) = rev asc.
Proof.
  intros S N P. apply (sorted_eq (R := fun a b => b < a)); [lia| | |].
  - unfold sorting. apply (SS_map _ _ _ _ (argsort_sorted _ _)). intros x y Ix Iy [H|[H1 H2]]; [lia|].
    assert (x = y); [|lia].
    assert (E : nth x ax 0 = nth y ax 0) by lia. rewrite (NoDup_nth ax 0) in N. apply N; auto; apply sorting_in; assumption.
  - exact (SS_rev _ _ S).
  - unfold sorting. rewrite (Permutation_map _ (argsort_perm _ _)), nth_seq_map, <- P. apply Permutation_rev.
Qed.
Lemma position_spec x l : In x l -> position x l < length l /\ nth (position x l) l 0 = x.
Proof.
  induction l as [|y l IH]; [intros []|]. intros H. cbn. destruct (Nat.eqb_spec x y); [split; [lia|auto]|]. destruct H as [H|H]; [congruence|]. destruct (IH H). split; [lia|assumption].
Qed.
Lemma position_map (f : nat -> nat) x l : (forall a b, f a = f b -> a = b) -> position (f x) (map f l) = position x l.
Proof.
  intros I. induction l as [|y l IH]; [reflexivity|]. cbn. rewrite IH. destruct (Nat.eqb_spec x y) as [->|N]; [now rewrite Nat.eqb_refl|]. destruct (Nat.eqb_spec (f x) (f y)) as [E|]; [exfalso; auto|reflexivity].
Qed.
Lemma position_app x l l' : position x (l ++ l') = if existsb (Nat.eqb x) l then position x l else length l + position x l'.
Proof.
  induction l as [|y l IH]; [reflexivity|]. cbn. rewrite IH. destruct (Nat.eqb_spec x y) as [->|N]; [reflexivity|]. cbn. destruct (existsb _ l); reflexivity.
Qed.
Lemma inv_unique_spec inv : NoDup (inv_unique inv) /\ forall f, In f (inv_unique inv) <-> In f inv.
Proof.
  assert (G : forall inv seen, NoDup (inv_unique_from seen inv) /\ forall f, In f (inv_unique_from seen inv) <-> In f inv /\ ~ In f seen).
  { clear. induction inv as [|i r IH]; intros seen; [split; [constructor|cbn; tauto]|]. cbn [inv_unique_from]. destruct (existsb (Nat.eqb i) seen) eqn:E.
    - apply existsb_exists in E as (j & Hj & Ej). apply Nat.eqb_eq in Ej as <-. destruct (IH seen) as [N I]. split; [exact N|]. intros f. rewrite I. cbn. split; [tauto|]. intros [[<-|H] Hn]; tauto.
    - assert (Ns : ~ In i seen) by (intros H; assert (existsb (Nat.eqb i) seen = true) by (apply existsb_exists; exists i; split; [exact H|apply Nat.eqb_refl]); congruence).
      destruct (IH (i :: seen)) as [N I]. split; [constructor; [rewrite I; cbn; tauto|exact N]|]. intros f. cbn [In]. rewrite I. cbn. split; [intros [<-|[? ?]]; tauto|]. intros [[<-|H] Hn]; [tauto|]. destruct (Nat.eq_dec i f); [tauto|right; tauto]. }
  destruct (G inv []) as [N I]. split; [exact N|]. intros f. unfold inv_unique. rewrite I. cbn. tauto.
Qed.
Lemma canonical_axes_is inv : canonical_axes (2 * length (inv_unique inv)) inv =
  map (fun i => 2 * i) (sorting (inv_unique inv)) ++ map (fun i => 2 * i + 1) (sorting (inv_unique inv)).
Proof.
  unfold canonical_axes. destruct (Nat.ltb_spec (2 * length (inv_unique inv)) 3) as [H|H]; [|reflexivity].
  destruct (inv_unique inv) as [|i [|j l]]; cbn in H; [reflexivity|reflexivity|lia].
Qed.
Lemma pairs_len (f g : nat -> nat) ax : length (flat_map (fun x => [f x; g x]) ax) = 2 * length ax.
Proof. induction ax as [|x ax IH]; [reflexivity|]. cbn [flat_map app length]. rewrite IH. lia. Qed.
Lemma pairs_nth (f g : nat -> nat) ax : forall i, i < length ax -> nth (2 * i) (flat_map (fun x => [f x; g x]) ax) 0 = f (nth i ax 0) /\ nth (2 * i + 1) (flat_map (fun x => [f x; g x]) ax) 0 = g (nth i ax 0).
Proof.
  induction ax as [|x ax IH]; intros i Hi; [cbn in Hi; lia|]. destruct i as [|i]; [split; reflexivity|]. cbn in Hi. destruct (IH i ltac:(lia)) as [E1 E2].
  replace (2 * S i) with (S (S (2 * i))) by lia. replace (2 * i + 1) with (S (2 * i)) in E2 by lia. replace (S (S (2 * i)) + 1) with (S (S (S (2 * i)))) by lia. cbn [flat_map app nth]. split; assumption.
Qed.

(** entry read by the flat index of the states m, m' *)
Lemma flat_at_pack {A} (arr : list nat -> res A) (cb ck inv asc m m' : list nat) : let ax := inv_unique inv in
  StronglySorted lt asc -> (forall f, In f asc <-> In f inv) -> (forall f, In f inv -> f < length cb /\ f < length ck) -> in_range cb m -> in_range ck m' ->
  let shape := flat_map (fun f => [nth f cb 0; nth f ck 0]) ax in
  flat_at shape (canonical_axes (length shape) inv) arr (pack cb asc m * prodN (sel ck asc) + pack ck asc m') =
  arr (flat_map (fun f => [nth f m 0; nth f m' 0]) ax).
Proof.
  intros ax S E Hl R R' shape. destruct (inv_unique_spec inv) as [N I]. fold ax in N, I. unfold shape. rewrite pairs_len. fold shape. unfold ax at 1. rewrite canonical_axes_is. fold ax. set (idx := sorting ax).
  assert (Nasc : NoDup asc) by (clear - S; induction S as [|x l H1 IH H2]; constructor; auto; intros Hx; rewrite Forall_forall in H2; specialize (H2 _ Hx); lia).
  assert (P : Permutation asc ax) by (apply NoDup_Permutation; auto; intros f; rewrite E, I; tauto).
  pose proof (sorting_rev ax asc S N P) as Es. fold idx in Es. assert (Hin : forall i, In i idx <-> i < length ax) by (intros; apply sorting_in).
  assert (Hc : forall (l d : list nat), map (fun i => nth (nth i ax 0) l 0) idx = rev (sel l asc)).
  { intros l _. rewrite <- (map_map (fun i => nth i ax 0) (fun f => nth f l 0)), Es. unfold sel. now rewrite map_rev. }
  assert (Esh : map (fun a => nth a shape 0) (map (fun i => 2 * i) idx ++ map (fun i => 2 * i + 1) idx) = rev (sel cb asc) ++ rev (sel ck asc)).
  { rewrite map_app, !map_map. f_equal.
    - rewrite <- (Hc cb []). apply map_ext_in. intros i Hi. apply Hin in Hi. apply (pairs_nth (fun f => nth f cb 0) (fun f => nth f ck 0) ax i Hi).
    - rewrite <- (Hc ck []). apply map_ext_in. intros i Hi. apply Hin in Hi. apply (pairs_nth (fun f => nth f cb 0) (fun f => nth f ck 0) ax i Hi). }
  unfold flat_at. rewrite Esh.
  assert (B1 : pack cb asc m < prodN (sel cb asc)) by (apply pack_lt; auto; intros f Hf; apply Hl; now apply E).
  assert (B2 : pack ck asc m' < prodN (sel ck asc)) by (apply pack_lt; auto; intros f Hf; apply Hl; now apply E).
  assert (Ep : prodN (rev (sel cb asc) ++ rev (sel ck asc)) = prodN (sel cb asc) * prodN (sel ck asc)).
  { rewrite <- (prodN_rev (sel cb asc)) , <- (prodN_rev (sel ck asc)). generalize (rev (sel cb asc)) (rev (sel ck asc)). induction l as [|x l IH]; intros l'; cbn; [lia|rewrite IH; lia]. }
  rewrite Ep. replace (_ <? _) with true by (symmetry; apply Nat.ltb_lt; nia).
  assert (Sr : forall c e, in_range c e -> (forall f, In f inv -> f < length c) -> unravel (rev (sel c asc)) (pack c asc e) = rev (sel e asc)).
  { intros c e Rc Hc'. unfold pack. apply unravel_colmajor. apply sel_range; auto. intros f Hf. apply Hc'. now apply E. }
  rewrite <- (prodN_rev (sel ck asc)). rewrite unravel_app by (rewrite prodN_rev; assumption).
  rewrite !Sr by (auto; intros; apply Hl; assumption). f_equal. unfold shape. rewrite pairs_len. fold shape.
  apply (nth_ext _ _ 0 0); [now rewrite map_length, seq_length, pairs_len|]. intros a Ha. rewrite map_length, seq_length in Ha.
  set (F := fun a => nth (position a (map (fun i => 2 * i) idx ++ map (fun i => 2 * i + 1) idx)) (rev (sel m asc) ++ rev (sel m' asc)) 0).
  rewrite (nth_indep _ 0 (F 0)) by now rewrite map_length, seq_length. rewrite (map_nth F), seq_nth by assumption. cbn [Nat.add]. unfold F.
  assert (Li : length idx = length asc) by (transitivity (length (rev asc)); [rewrite <- Es; now rewrite map_length | apply rev_length]).
  assert (Val : forall (l : list nat) i, i < length ax -> nth (position i idx) (rev (sel l asc)) 0 = nth (nth i ax 0) l 0).
  { intros l i Hi. rewrite <- (Hc l []). apply Hin in Hi. destruct (position_spec i idx Hi) as [Q1 Q2].
    rewrite (nth_indep _ 0 (nth (nth 0 ax 0) l 0)) by now rewrite map_length. rewrite (map_nth (fun i => nth (nth i ax 0) l 0)), Q2. reflexivity. }
  rewrite position_app. destruct (Nat.Even_or_Odd a) as [[i ->]|[i ->]].
  - assert (Hi : i < length ax) by lia. replace (existsb _ _) with true.
    2:{ symmetry. apply existsb_exists. exists (2 * i). split; [apply in_map_iff; exists i; split; [reflexivity|now apply Hin]|apply Nat.eqb_refl]. }
    rewrite (position_map (fun i => 2 * i)) by (intros; lia). rewrite app_nth1.
    + rewrite Val by assumption. symmetry. apply (pairs_nth (fun f => nth f m 0) (fun f => nth f m' 0) ax i Hi).
    + rewrite rev_length. unfold sel. rewrite map_length, <- Li. apply position_spec. now apply Hin.
  - assert (Hi : i < length ax) by lia. replace (existsb _ _) with false.
    2:{ symmetry. apply not_true_is_false. intros H. apply existsb_exists in H as (y & Hy & Ey). apply Nat.eqb_eq in Ey. apply in_map_iff in Hy as (z & <- & _). lia. }
    rewrite (position_map (fun i => 2 * i + 1)) by (intros; lia). rewrite map_length. rewrite app_nth2; rewrite rev_length; unfold sel at 1; rewrite map_length, Li; [|lia].
    replace (length asc + position i idx - length asc) with (position i idx) by lia. rewrite Val by assumption. symmetry. apply (pairs_nth (fun f => nth f m 0) (fun f => nth f m' 0) ax i Hi).
Qed.
