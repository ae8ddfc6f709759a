(** Which segments SmultShifter._matvec reads and writes. *)
From Coq Require Import List Lia Bool Arith.
From Verif Require Import Base BaseFacts AddrModel AddrSpec AddrBlocks Star BasisModel.
Import ListNotations.
Local Open Scope nat_scope.

(** sum of the first sizes of manifolds with both sizes positive *)
Definition both (p : nat * nat) : bool := (0 <? fst p) && (0 <? snd p).
Fixpoint kept (pr : nat * nat -> nat) (l : list (nat * nat)) : nat :=
  match l with [] => 0 | p :: r => (if both p then pr p else 0) + kept pr r end.

Lemma segs_in sizes : forall n i0 f0 k a b c d,
  In (k, (a, b), (c, d)) (shifter_segments sizes n i0 f0) <->
  exists q p, k = n + q /\ nth_error sizes q = Some p /\ both p = true /\
    a = i0 + kept fst (firstn q sizes) /\ b = a + fst p /\ c = f0 + kept snd (firstn q sizes) /\ d = c + snd p.
Proof.
  induction sizes as [|[si sf] r IH]; intros n i0 f0 k a b c d; cbn [shifter_segments].
  - split; [intros []|]. intros (q & p & _ & H & _). destruct q; discriminate.
  - cbv zeta. replace (i0 + si - i0) with si by lia. replace (f0 + sf - f0) with sf by lia.
    change ((0 <? si) && (0 <? sf)) with (both (si, sf)). destruct (both (si, sf)) eqn:Eb.
    + cbn [In]. rewrite IH. split.
      * intros [H|(q & p & -> & Hq & Hb & -> & -> & -> & ->)].
        -- injection H as <- <- <- <- <-. exists 0, (si, sf). cbn [nth_error firstn kept fst snd].
           repeat split; auto; lia.
        -- exists (S q), p. cbn [nth_error firstn kept]. rewrite Eb. cbn [fst snd].
           repeat split; auto; lia.
      * intros (q & p & -> & Hq & Hb & -> & -> & -> & ->). destruct q as [|q]; cbn [nth_error firstn kept] in *.
        -- left. injection Hq as <-. cbn [fst snd]. rewrite !Nat.add_0_r. auto.
        -- right. exists q, p. rewrite Eb. cbn [fst snd]. repeat split; auto; lia.
    + rewrite IH. split.
      * intros (q & p & -> & Hq & Hb & -> & -> & -> & ->).
        exists (S q), p. cbn [nth_error firstn kept]. rewrite Eb. cbn [fst snd].
        repeat split; auto; lia.
      * intros (q & p & -> & Hq & Hb & -> & -> & -> & ->). destruct q as [|q]; cbn [nth_error firstn kept] in *.
        -- injection Hq as <-. congruence.
        -- exists q, p. rewrite Eb. cbn [fst snd]. repeat split; auto; lia.
Qed.

Lemma kept_le pr l : kept pr l <= fold_right Nat.add 0 (map pr l).
Proof. induction l as [|p l IH]; cbn; auto. destruct (both p); lia. Qed.

Lemma kept_all pr l : kept pr l = fold_right Nat.add 0 (map pr l) <->
  (forall p, In p l -> both p = true \/ pr p = 0).
Proof.
  induction l as [|p l IH]; cbn; [tauto|]. pose proof (kept_le pr l). split.
  - intros H0. destruct (both p) eqn:E.
    + intros q [<-|Hq]; auto. apply IH; auto; lia.
    + intros q [<-|Hq]; [right; lia|]. apply IH; auto; lia.
  - intros Hp. rewrite (proj2 IH) by auto. destruct (both p) eqn:E; auto.
    destruct (Hp p); [auto|congruence|lia].
Qed.
