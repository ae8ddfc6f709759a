(** Every interaction satisfies the condition of exactly one kind of table, and the fragments found are the right ones. *)
From Coq Require Import List ZArith Bool Arith Lia Permutation Sorted.
From Verif Require Import Base BaseFacts ExcModel ExcSpec ExcFacts.
Import ListNotations.
Local Open Scope Z_scope.

Definition hopok (h : hop) : Prop := sumZ (map fst h) = 0 /\ sumZ (map snd h) = 0 /\ nop h <= 4.
Definition changes (h : hop) (ops : list fop * list fop) : Prop :=
  forall f, (f < length h)%nat -> hop_at h f = (moves (fst ops) (snd ops) f 0, moves (fst ops) (snd ops) f 1).
Definition good_1c (h : hop) (i j s : nat) : Prop := (i < length h)%nat /\ (j < length h)%nat /\ i <> j /\ (s < 2)%nat /\ changes h (ops_1c i j s).
Definition good_1s (h : hop) (i j : nat) : Prop := (i < length h)%nat /\ (j < length h)%nat /\ i <> j /\ changes h (ops_1s i j).
Definition good_1s1c (h : hop) (i j k s : nat) : Prop := (i < length h)%nat /\ (j < length h)%nat /\ (k < length h)%nat /\ NoDup [i; j; k]
  /\ (s < 2)%nat /\ changes h (ops_1s1c i j k s).
Definition good_2c (h : hop) (i j k l s : nat) : Prop := (i < length h)%nat /\ (j < length h)%nat /\ (k < length h)%nat /\ (l < length h)%nat
  /\ i <> j /\ i <> l /\ k <> j /\ k <> l /\ (s < 3)%nat /\ changes h (ops_2c i j k l s).

Definition c_null h := nop h =? 0.
Definition c_1c h := nop h =? 2.
Definition c_split h := is_2e h && (ncharge h =? 3)%nat && (amin charge h =? -2).
Definition c_coal h := is_2e h && (ncharge h =? 3)%nat && (amax charge h =? 2).
Definition c_1s1c h := is_2e h && (nspin h =? 3)%nat && (ncharge h =? 2)%nat && (amin spin2 h =? -2).
Definition c_1s1cT h := is_2e h && (nspin h =? 3)%nat && (ncharge h =? 2)%nat && (amax spin2 h =? 2).
Definition c_1s h := is_2e h && (ncharge h =? 0)%nat && (nspin h =? 2)%nat.
Definition c_pair h := is_2e h && (ncharge h =? 2)%nat && (nspin h <? 3)%nat.
Definition c_scat h := is_2e h && (ncharge h =? 4)%nat.

(** values of all conditions, the spin label and the number of changed fragments *)
Definition conds (h : hop) := [c_null h; c_1c h; c_1s h; c_1s1c h; c_1s1cT h; c_pair h; c_split h; c_coal h; c_scat h].
Definition hop_good (h : hop) : Prop :=
  (c_null h = true -> changes h ([], [])) /\
  (c_1c h = true -> (1 < length h)%nat /\ good_1c h (lst_at h 0) (fst_at h 0) (ispin h)) /\
  (c_1s h = true -> (1 < length h)%nat /\ good_1s h (lst_at h 0) (fst_at h 0)) /\
  (c_1s1c h = true -> (2 < length h)%nat /\ good_1s1c h (lst_at h 0) (fst_at h 1) (fst_at h 0) 0) /\
  (c_1s1cT h = true -> (2 < length h)%nat /\ good_1s1c h (lst_at h 1) (fst_at h 0) (lst_at h 0) 1) /\
  (c_pair h = true -> (1 < length h)%nat /\ good_2c h (lst_at h 0) (fst_at h 0) (lst_at h 0) (fst_at h 0) (ispin h)) /\
  (c_split h = true -> (2 < length h)%nat /\ good_2c h (lst_at h 0) (fst_at h 0) (lst_at h 1) (fst_at h 0) (ispin h)) /\
  (c_coal h = true -> (2 < length h)%nat /\ good_2c h (lst_at h 0) (fst_at h 0) (lst_at h 0) (fst_at h 1) (ispin h)) /\
  (c_scat h = true -> (3 < length h)%nat /\ good_2c h (lst_at h 0) (fst_at h 0) (lst_at h 1) (fst_at h 1) (ispin h)).
Definition one_cond (h : hop) : Prop := length (filter (fun b => b) (conds h)) = 1%nat.

Definition vabs (l : hop) : Z := sumZ (map (fun p => Z.abs (fst p)) l) + sumZ (map (fun p => Z.abs (snd p)) l).
Definition vconds (l : hop) : list bool :=
  let e2 := vabs l =? 4 in let nc := count_nz charge l in let ns := count_nz spin2 l in
  [vabs l =? 0; vabs l =? 2; e2 && (nc =? 0)%nat && (ns =? 2)%nat;
   e2 && (ns =? 3)%nat && (nc =? 2)%nat && has_min spin2 (-2) l; e2 && (ns =? 3)%nat && (nc =? 2)%nat && has_max spin2 2 l;
   e2 && (nc =? 2)%nat && (ns <? 3)%nat; e2 && (nc =? 3)%nat && has_min charge (-2) l; e2 && (nc =? 3)%nat && has_max charge 2 l; e2 && (nc =? 4)%nat].
Lemma conds_eq h S : supp h S -> conds h = vconds (map snd S).
Proof.
  intros H. unfold conds, vconds, c_null, c_1c, c_1s, c_1s1c, c_1s1cT, c_pair, c_split, c_coal, c_scat, is_2e, nop, sum_abs, ncharge, nspin, vabs.
  rewrite (supp_sum _ h S H) by reflexivity. rewrite (supp_sum (fun p => Z.abs (snd p)) h S H) by reflexivity.
  rewrite !(supp_count _ h S H) by reflexivity. rewrite !(supp_amin _ h S _ H) by (reflexivity || lia). rewrite !(supp_amax _ h S _ H) by (reflexivity || lia).
  reflexivity.
Qed.
Lemma ispin_eq h S : supp h S -> ispin h = Z.to_nat (sumZ (map (fun p => Z.abs (snd p)) (map snd S)) / 2).
Proof. intros H. unfold ispin, sum_abs. now rewrite (supp_sum (fun p => Z.abs (snd p)) h S H) by reflexivity. Qed.
Lemma supp_len h S : supp h S -> (length S <= length h)%nat.
Proof. intros H. destruct (supp_perm h S H) as (rest & _ & _ & E). lia. Qed.

Definition u (s : nat) (k : Z) : Z * Z := if (s =? 0)%nat then (k, 0) else (0, k).

Ltac sorted2 := repeat (constructor; [| repeat (constructor; [unfold before2; cbn; lia|]); constructor ]); try constructor.
Ltac mk_findf Hs S1 S2 :=
  let rest := fresh "rest" in let E := fresh "FE" in
  destruct (findf_eq _ S1 S2 Hs) as (rest & E); [repeat (constructor; [cbn; lia|]); constructor | repeat (constructor; [cbn; lia|]); constructor | sorted2 | sorted2 | ].
Ltac eqbs := repeat match goal with
  | |- context [(?a =? ?b)%nat] => destruct (Nat.eqb_spec a b); try subst; try lia end.
Ltac changes_tac Hs := intros f Hf; rewrite (supp_at _ _ Hs f Hf); cbv [lookup moves times fst snd ops_1c ops_1s ops_1s1c ops_2c app];
  change (Nat.div 0 2) with 0%nat; change (Nat.div 1 2) with 0%nat; change (Nat.div 2 2) with 1%nat; change (1 - 0)%nat with 1%nat; change (1 - 1)%nat with 0%nat;
  change (0 - 0)%nat with 0%nat; change (2 - 1)%nat with 1%nat;
  change (0 =? 0)%nat with true; change (1 =? 0)%nat with false; change (0 =? 1)%nat with false; change (1 =? 1)%nat with true; cbv iota;
  eqbs; reflexivity.
Ltac nodup_tac := repeat (constructor; [cbn; intuition lia|]); constructor.
Ltac good_tac Hs := cbn [length app]; repeat split; try lia; try nodup_tac; try changes_tac Hs.
Ltac finish Hs S1 S2 :=
  once (mk_findf Hs S1 S2);
  let L := fresh "L" in let C := fresh "C" in let I := fresh "I" in
  pose proof (supp_len _ _ Hs) as L; pose proof (conds_eq _ _ Hs) as C; pose proof (ispin_eq _ _ Hs) as I;
  let v := eval vm_compute in (vconds (map snd (S1 ++ S2))) in change (vconds (map snd (S1 ++ S2))) with v in C;
  let w := eval vm_compute in (Z.to_nat (sumZ (map (fun p => Z.abs (snd p)) (map snd (S1 ++ S2))) / 2)) in
  change (Z.to_nat (sumZ (map (fun p => Z.abs (snd p)) (map snd (S1 ++ S2))) / 2)) with w in I;
  split; [unfold hop_good; rewrite I; unfold lst_at, fst_at;
          match goal with F : findf _ = _ |- _ => rewrite F end; rewrite ?rev_app_distr; cbn [rev app map fst nth];
          unfold conds in C; injection C as -> -> -> -> -> -> -> -> ->;
          refine (conj _ (conj _ (conj _ (conj _ (conj _ (conj _ (conj _ (conj _ _)))))))); (let X := fresh "X" in intros X; try discriminate X; clear X)
         | unfold one_cond; rewrite C; reflexivity].

Ltac facts Hs := let Nd := fresh "Nd" in let Lt := fresh "Lt" in
  pose proof (supp_nd _ _ Hs) as Nd; pose proof (supp_lt _ _ Hs) as Lt; cbn [map app fst snd] in Nd, Lt;
  repeat match goal with
  | H : Forall _ (_ :: _) |- _ => apply Forall_cons_iff in H; destruct H as [? H]; cbn [fst] in *
  | H : NoDup (_ :: _) |- _ => apply NoDup_cons_iff in H; destruct H as [? H]; cbn [In] in * end.
Ltac ps := constructor; [cbn; nodup_tac | repeat (constructor; [cbn; lia|]); constructor | ].
Lemma class_0 h : supp h [] -> hop_good h /\ one_cond h.
Proof. intros Hs. finish Hs (@nil (nat * (Z*Z))) (@nil (nat * (Z*Z))). changes_tac Hs. Qed.
Lemma class_1a h i j : supp h ([(j, (-1, 0))] ++ [(i, (1, 0))]) -> hop_good h /\ one_cond h.
Proof. intros Hs. facts Hs. finish Hs [(j, (-1, 0))] [(i, (1, 0))]. all: unfold good_1c, good_1s, good_1s1c, good_2c; good_tac Hs. Qed.
Lemma class_pair_a h i j : supp h ([(j, (-2, 0))] ++ [(i, (2, 0))]) -> hop_good h /\ one_cond h.
Proof. intros Hs. facts Hs. finish Hs [(j, (-2, 0))] [(i, (2, 0))]. all: unfold good_1c, good_1s, good_1s1c, good_2c; good_tac Hs. Qed.
Lemma class_split_a h i k j : (k < i)%nat -> supp h ([(j, (-2, 0))] ++ [(k, (1, 0)); (i, (1, 0))]) -> hop_good h /\ one_cond h.
Proof. intros O Hs. facts Hs. finish Hs [(j, (-2, 0))] [(k, (1, 0)); (i, (1, 0))]. all: unfold good_1c, good_1s, good_1s1c, good_2c; good_tac Hs. Qed.
Lemma class_coal_a h i j l : (j < l)%nat -> supp h ([(j, (-1, 0)); (l, (-1, 0))] ++ [(i, (2, 0))]) -> hop_good h /\ one_cond h.
Proof. intros O Hs. facts Hs. finish Hs [(j, (-1, 0)); (l, (-1, 0))] [(i, (2, 0))]. all: unfold good_1c, good_1s, good_1s1c, good_2c; good_tac Hs. Qed.
Lemma class_scat_a h i j k l : (j < l /\ k < i)%nat -> supp h ([(j, (-1, 0)); (l, (-1, 0))] ++ [(k, (1, 0)); (i, (1, 0))]) -> hop_good h /\ one_cond h.
Proof. intros O Hs. facts Hs. finish Hs [(j, (-1, 0)); (l, (-1, 0))] [(k, (1, 0)); (i, (1, 0))]. all: unfold good_1c, good_1s, good_1s1c, good_2c; good_tac Hs. Qed.
Lemma class_1b h i j : supp h ([(j, (0, -1))] ++ [(i, (0, 1))]) -> hop_good h /\ one_cond h.
Proof. intros Hs. facts Hs. finish Hs [(j, (0, -1))] [(i, (0, 1))]. all: unfold good_1c, good_1s, good_1s1c, good_2c; good_tac Hs. Qed.
Lemma class_pair_b h i j : supp h ([(j, (0, -2))] ++ [(i, (0, 2))]) -> hop_good h /\ one_cond h.
Proof. intros Hs. facts Hs. finish Hs [(j, (0, -2))] [(i, (0, 2))]. all: unfold good_1c, good_1s, good_1s1c, good_2c; good_tac Hs. Qed.
Lemma class_split_b h i k j : (k < i)%nat -> supp h ([(j, (0, -2))] ++ [(k, (0, 1)); (i, (0, 1))]) -> hop_good h /\ one_cond h.
Proof. intros O Hs. facts Hs. finish Hs [(j, (0, -2))] [(k, (0, 1)); (i, (0, 1))]. all: unfold good_1c, good_1s, good_1s1c, good_2c; good_tac Hs. Qed.
Lemma class_coal_b h i j l : (j < l)%nat -> supp h ([(j, (0, -1)); (l, (0, -1))] ++ [(i, (0, 2))]) -> hop_good h /\ one_cond h.
Proof. intros O Hs. facts Hs. finish Hs [(j, (0, -1)); (l, (0, -1))] [(i, (0, 2))]. all: unfold good_1c, good_1s, good_1s1c, good_2c; good_tac Hs. Qed.
Lemma class_scat_b h i j k l : (j < l /\ k < i)%nat -> supp h ([(j, (0, -1)); (l, (0, -1))] ++ [(k, (0, 1)); (i, (0, 1))]) -> hop_good h /\ one_cond h.
Proof. intros O Hs. facts Hs. finish Hs [(j, (0, -1)); (l, (0, -1))] [(k, (0, 1)); (i, (0, 1))]. all: unfold good_1c, good_1s, good_1s1c, good_2c; good_tac Hs. Qed.
Lemma class_pair_ab h i j : supp h ([(j, (-1, -1))] ++ [(i, (1, 1))]) -> hop_good h /\ one_cond h.
Proof. intros Hs. facts Hs. finish Hs [(j, (-1, -1))] [(i, (1, 1))]. all: unfold good_1c, good_1s, good_1s1c, good_2c; good_tac Hs. Qed.
Lemma class_1s h i j : supp h ([(j, (-1, 1))] ++ [(i, (1, -1))]) -> hop_good h /\ one_cond h.
Proof. intros Hs. facts Hs. finish Hs [(j, (-1, 1))] [(i, (1, -1))]. all: unfold good_1c, good_1s, good_1s1c, good_2c; good_tac Hs. Qed.
Lemma class_coal_ab h i j l : supp h ([(j, (-1, 0)); (l, (0, -1))] ++ [(i, (1, 1))]) -> hop_good h /\ one_cond h.
Proof. intros Hs. facts Hs. finish Hs [(j, (-1, 0)); (l, (0, -1))] [(i, (1, 1))]. all: unfold good_1c, good_1s, good_1s1c, good_2c; good_tac Hs. Qed.
Lemma class_split_ab h i k j : supp h ([(j, (-1, -1))] ++ [(k, (0, 1)); (i, (1, 0))]) -> hop_good h /\ one_cond h.
Proof. intros Hs. facts Hs. finish Hs [(j, (-1, -1))] [(k, (0, 1)); (i, (1, 0))]. all: unfold good_1c, good_1s, good_1s1c, good_2c; good_tac Hs. Qed.
Lemma class_1s1cT h i j k : supp h ([(j, (-1, 0))] ++ [(k, (0, 1)); (i, (1, -1))]) -> hop_good h /\ one_cond h.
Proof. intros Hs. facts Hs. finish Hs [(j, (-1, 0))] [(k, (0, 1)); (i, (1, -1))]. all: unfold good_1c, good_1s, good_1s1c, good_2c; good_tac Hs. Qed.
Lemma class_1s1c h i j l : supp h ([(j, (-1, 1)); (l, (0, -1))] ++ [(i, (1, 0))]) -> hop_good h /\ one_cond h.
Proof. intros Hs. facts Hs. finish Hs [(j, (-1, 1)); (l, (0, -1))] [(i, (1, 0))]. all: unfold good_1c, good_1s, good_1s1c, good_2c; good_tac Hs. Qed.
Lemma class_scat_ab h i j k l : supp h ([(j, (-1, 0)); (l, (0, -1))] ++ [(k, (0, 1)); (i, (1, 0))]) -> hop_good h /\ one_cond h.
Proof. intros Hs. facts Hs. finish Hs [(j, (-1, 0)); (l, (0, -1))] [(k, (0, 1)); (i, (1, 0))]. all: unfold good_1c, good_1s, good_1s1c, good_2c; good_tac Hs. Qed.

Ltac mksupp Ha Hb := constructor; [cbn; nodup_tac | cbn [app]; repeat (constructor; [cbn; lia|]); constructor |
  let f := fresh "f" in let Hf := fresh "Hf" in intros f Hf; rewrite (surjective_pairing (hop_at _ f)); rewrite (Ha f Hf), (Hb f Hf); unfold dl; cbv [lookup app]; eqbs; reflexivity ].
Theorem classify h : hopok h -> hop_good h /\ one_cond h.
Proof.
  intros (Ha & Hb & N). set (a := fun f => fst (hop_at h f)). set (b := fun f => snd (hop_at h f)).
  assert (Ha' : sumn (length h) a = 0) by (unfold sumn, a; rewrite <- (hop_map fst h); exact Ha).
  assert (Hb' : sumn (length h) b = 0) by (unfold sumn, b; rewrite <- (hop_map snd h); exact Hb).
  assert (N' : sumn (length h) (fun f => Z.abs (a f)) + sumn (length h) (fun f => Z.abs (b f)) <= 4).
  { unfold sumn, a, b. rewrite <- (hop_map (fun p => Z.abs (fst p)) h), <- (hop_map (fun p => Z.abs (snd p)) h). exact N. }
  pose proof (sumn_nonneg (length h) (fun f => Z.abs (a f)) (fun f => Z.abs_nonneg _)) as P.
  pose proof (sumn_nonneg (length h) (fun f => Z.abs (b f)) (fun f => Z.abs_nonneg _)) as Q.
  clear Ha Hb N.
  assert (D1 : sumn (length h) (fun f => Z.abs (a f)) <= 4) by lia. assert (D2 : sumn (length h) (fun f => Z.abs (b f)) <= 4) by lia.
  destruct (decompose _ a Ha' D1) as [[Ma Ea]|[[Ma Ea]|[Ma Ea]]], (decompose _ b Hb' D2) as [[Mb Eb]|[[Mb Eb]|[Mb Eb]]]; try lia; clear P Q D1 D2 Ha' Hb' N' Ma Mb;
    unfold a, b in Ea, Eb; clear a b.
  - apply class_0. mksupp Ea Eb.
  - destruct Eb as (i & j & ? & ? & ? & Eb). apply (class_1b h i j). mksupp Ea Eb.
  - destruct Eb as (i & j & k & l & ? & ? & ? & ? & ? & ? & ? & ? & Eb).
    destruct (Nat.lt_trichotomy i k) as [?|[?|?]], (Nat.lt_trichotomy j l) as [?|[?|?]]; subst.
    + apply (class_scat_b h k j i l); [lia|]. mksupp Ea Eb.
    + apply (class_split_b h k i l); [lia|]. mksupp Ea Eb.
    + apply (class_scat_b h k l i j); [lia|]. mksupp Ea Eb.
    + apply (class_coal_b h k j l); [lia|]. mksupp Ea Eb.
    + apply (class_pair_b h k l). mksupp Ea Eb.
    + apply (class_coal_b h k l j); [lia|]. mksupp Ea Eb.
    + apply (class_scat_b h i j k l); [lia|]. mksupp Ea Eb.
    + apply (class_split_b h i k l); [lia|]. mksupp Ea Eb.
    + apply (class_scat_b h i l k j); [lia|]. mksupp Ea Eb.
  - destruct Ea as (i & j & ? & ? & ? & Ea). apply (class_1a h i j). mksupp Ea Eb.
  - destruct Ea as (i & j & ? & ? & ? & Ea). destruct Eb as (k & l & ? & ? & ? & Eb).
    destruct (Nat.eq_dec i k) as [?|?], (Nat.eq_dec j l) as [?|?], (Nat.eq_dec i l) as [?|?], (Nat.eq_dec j k) as [?|?]; subst; try lia.
    + apply (class_pair_ab h k l). mksupp Ea Eb.
    + apply (class_coal_ab h k j l). mksupp Ea Eb.
    + apply (class_split_ab h i k l). mksupp Ea Eb.
    + apply (class_1s h l k). mksupp Ea Eb.
    + apply (class_1s1cT h l j k). mksupp Ea Eb.
    + apply (class_1s1c h i k l). mksupp Ea Eb.
    + apply (class_scat_ab h i j k l). mksupp Ea Eb.
  - destruct Ea as (i & j & k & l & ? & ? & ? & ? & ? & ? & ? & ? & Ea).
    destruct (Nat.lt_trichotomy i k) as [?|[?|?]], (Nat.lt_trichotomy j l) as [?|[?|?]]; subst.
    + apply (class_scat_a h k j i l); [lia|]. mksupp Ea Eb.
    + apply (class_split_a h k i l); [lia|]. mksupp Ea Eb.
    + apply (class_scat_a h k l i j); [lia|]. mksupp Ea Eb.
    + apply (class_coal_a h k j l); [lia|]. mksupp Ea Eb.
    + apply (class_pair_a h k l). mksupp Ea Eb.
    + apply (class_coal_a h k l j); [lia|]. mksupp Ea Eb.
    + apply (class_scat_a h i j k l); [lia|]. mksupp Ea Eb.
    + apply (class_split_a h i k l); [lia|]. mksupp Ea Eb.
    + apply (class_scat_a h i l k j); [lia|]. mksupp Ea Eb.
Qed.
