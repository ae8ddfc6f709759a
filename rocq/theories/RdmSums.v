(** Nested sums over the local states of several fragments. *)
From Coq Require Import List ZArith Bool Arith Lia Permutation Ring.
From Verif Require Import Base BaseFacts Star AddrModel AddrFacts AddrSpec AddrProofs TransFacts StdmModel StdmFacts HamModel RdmModel.
Import ListNotations.
Local Open Scope nat_scope.

(** replace element f *)
Definition put (f v : nat) (e : list nat) : list nat := upd f (fun _ => v) e.
Lemma put_len f v e : length (put f v e) = length e.
Proof. apply upd_length. Qed.
Lemma put_at f v e : f < length e -> nth f (put f v e) 0 = v.
Proof. intros H. apply nth_error_nth. unfold put. rewrite nth_error_upd_eq. destruct (nth_error e f) eqn:E; [reflexivity|]. apply nth_error_None in E. lia. Qed.
Lemma put_other f g v e : g <> f -> nth g (put f v e) 0 = nth g e 0.
Proof.
  intros H. unfold put. pose proof (nth_error_upd_neq f g (fun _ => v) e H) as E. destruct (nth_error e g) eqn:E2.
  - rewrite (nth_error_nth _ _ 0 E). now rewrite (nth_error_nth _ _ 0 E2).
  - rewrite nth_overflow by (now apply nth_error_None). symmetry. apply nth_overflow. now apply nth_error_None.
Qed.
Lemma put_comm f g v w : f <> g -> forall e, put f v (put g w e) = put g w (put f v e).
Proof.
  intros H e. apply (nth_ext _ _ 0 0); [now rewrite !put_len|]. intros i Hi. rewrite !put_len in Hi.
  destruct (Nat.eq_dec i f) as [->|N1]; [rewrite put_at by (now rewrite put_len); rewrite put_other by exact H; now rewrite put_at by exact Hi|].
  rewrite put_other by exact N1. destruct (Nat.eq_dec i g) as [->|N2]; [rewrite !put_at by (rewrite ?put_len; exact Hi); reflexivity|]. rewrite !put_other by assumption. reflexivity.
Qed.

Section Sums.
  Context {K : star_ring}.
  Add Ring Kring : (sring K).
  Fixpoint nsum (col l : list nat) (F : list nat -> K) (e : list nat) : K :=
    match l with [] => F e | f :: r => bsum (seq 0 (nth f col 0)) (fun v => nsum col r F (put f v e)) end.
  Lemma nsum_app col l l' F : forall e, nsum col (l ++ l') F e = nsum col l (nsum col l' F) e.
  Proof. induction l as [|f l IH]; intros e; [reflexivity|]. cbn [app nsum]. apply bsum_ext. intros v _. apply IH. Qed.
  (** G and F agree where the elements of l are in range and the others those of e *)
  Lemma nsum_ext col l (F G : list nat -> K) : forall e, (forall f, In f l -> f < length e) -> NoDup l ->
    (forall e', length e' = length e -> (forall f, In f l -> nth f e' 0 < nth f col 0) -> (forall f, ~ In f l -> nth f e' 0 = nth f e 0) -> F e' = G e') -> nsum col l F e = nsum col l G e.
  Proof.
    induction l as [|f l IH]; intros e Hl Hd H; cbn [nsum].
    - apply H; [reflexivity|intros f []|reflexivity].
    - inversion Hd as [|? ? Nf Hd']; subst. apply bsum_ext. intros v Hv. apply in_seq in Hv. apply IH.
      + intros g Hg. rewrite put_len. apply Hl. now right.
      + exact Hd'.
      + intros e' L R O. rewrite put_len in L. apply H; [exact L| |].
        * intros g [<-|Hg]; [|now apply R]. rewrite (O f Nf), put_at by (apply Hl; now left). lia.
        * intros g Hg. rewrite (O g) by (intros C; apply Hg; now right). apply put_other. intros ->. apply Hg. now left.
  Qed.
  Lemma nsum_perm col F l l' : Permutation l l' -> NoDup l -> forall e, nsum col l F e = nsum col l' F e.
  Proof.
    induction 1 as [|f l l' P IH|f g l|l l' l'' P1 IH1 P2 IH2]; intros Hd e; cbn [nsum].
    - reflexivity.
    - apply bsum_ext. intros v _. apply IH. now inversion Hd.
    - rewrite bsum_swap. apply bsum_ext. intros v _. apply bsum_ext. intros w _. rewrite put_comm; [reflexivity|]. inversion Hd as [|? ? N _]; subst. intros ->. apply N. now left.
    - rewrite IH1 by exact Hd. apply IH2. exact (Permutation_NoDup P1 Hd).
  Qed.
  Lemma nsum_mul_l col l c F : forall e, smul c (nsum col l F e) = nsum col l (fun e => smul c (F e)) e.
  Proof. induction l as [|f l IH]; intros e; cbn [nsum]; [reflexivity|]. rewrite bsum_mul_l. apply bsum_ext. intros v _. apply IH. Qed.
  Lemma nsum_bsum {A} col l (s : list A) (F : A -> list nat -> K) : forall e, nsum col l (fun e => bsum s (fun a => F a e)) e = bsum s (fun a => nsum col l (F a) e).
  Proof. induction l as [|f l IH]; intros e; cbn [nsum]; [reflexivity|]. rewrite bsum_swap. apply bsum_ext. intros v _. apply IH. Qed.
  Lemma nsum_swap col l col' l' (F : list nat -> list nat -> K) : forall e e', nsum col l (fun a => nsum col' l' (fun b => F a b) e') e = nsum col' l' (fun b => nsum col l (fun a => F a b) e) e'.
  Proof. induction l as [|f l IH]; intros e e'; cbn [nsum]; [reflexivity|]. rewrite nsum_bsum. apply bsum_ext. intros v _. apply IH. Qed.

  (** a sum over a compound index, the first component changing fastest *)
  Lemma bsum_split d m (G : nat -> K) : bsum (seq 0 (d * m)) G = bsum (seq 0 d) (fun x => bsum (seq 0 m) (fun y => G (x + d * y))).
  Proof.
    rewrite bsum_swap. induction m as [|m IH]; [rewrite Nat.mul_0_r; reflexivity|].
    rewrite seq_S, bsum_app, <- IH. cbn [bsum]. replace (d * S m) with (d * m + d) by lia. rewrite seq_app, bsum_app, !Nat.add_0_l.
    assert (E : seq (d * m) d = map (fun x => x + d * m) (seq 0 d)); [|rewrite E, bsum_map; ring].
    clear. generalize (d * m). intros k. apply (nth_ext _ _ 0 0); [now rewrite map_length, !seq_length|]. intros i Hi. rewrite seq_length in Hi. rewrite (nth_map_lt _ _ _ 0) by (now rewrite seq_length). rewrite !seq_nth by exact Hi. lia.
  Qed.
  Lemma nsum_pack col l : NoDup l -> forall (G : nat -> K) e, (forall f, In f l -> f < length e) -> nsum col l (fun e => G (pack col l e)) e = bsum (seq 0 (prodN (sel col l))) G.
  Proof.
    intros Hd. induction l as [|f l IH]; intros G e Hl; cbn [nsum].
    - cbn. unfold pack. cbn. ring.
    - inversion Hd as [|? ? Nf Hd']; subst. unfold sel. cbn [map prodN]. fold (sel col l). rewrite bsum_split. apply bsum_ext. intros v Hv.
      rewrite <- (IH Hd' (fun y => G (v + nth f col 0 * y)) (put f v e)) by (intros g Hg; rewrite put_len; apply Hl; now right).
      apply nsum_ext; [intros g Hg; rewrite put_len; apply Hl; now right | exact Hd' |]. intros e' L _ O. unfold pack, sel. cbn [map colmajor]. rewrite (O f Nf), put_at by (apply Hl; now left). reflexivity.
  Qed.
  Lemma nsum_idxs dims (F : list nat -> K) : bsum (idxs dims) F = nsum dims (seq 0 (length dims)) F (repeat 0 (length dims)).
  Proof.
    assert (G : forall d2 d1 e, length e = length d1 -> bsum (idxs d2) (fun t => F (e ++ t)) = nsum (d1 ++ d2) (seq (length d1) (length d2)) F (e ++ repeat 0 (length d2))).
    { induction d2 as [|d d2 IH]; intros d1 e L; cbn [idxs length seq nsum].
      - cbn. ring.
      - rewrite bsum_flat_map. rewrite app_nth2 by lia. rewrite Nat.sub_diag. cbn [nth]. apply bsum_ext. intros v _. rewrite bsum_map.
        specialize (IH (d1 ++ [d]) (e ++ [v])). rewrite <- app_assoc in IH. cbn [app] in IH. rewrite !app_length in IH. cbn [length] in IH. replace (length d1 + 1) with (S (length d1)) in IH by lia.
        rewrite <- app_assoc in IH. cbn [app] in IH. replace (put (length d1) v (e ++ repeat 0 (S (length d2)))) with (e ++ v :: repeat 0 (length d2)).
        + rewrite <- IH by lia. apply bsum_ext. intros t _. now rewrite <- app_assoc.
        + rewrite <- L. clear. induction e as [|a e IH]; [reflexivity|]. cbn. f_equal. exact IH. }
    exact (G dims [] [] eq_refl).
  Qed.
End Sums.

(** flattened indices of reversed fragments *)
Lemma ravel_app shape : forall acc ix d i, length ix = length shape -> ravel acc (shape ++ [d]) (ix ++ [i]) = ravel acc shape ix * d + i.
Proof. induction shape as [|a shape IH]; intros acc [|x ix] d i L; cbn [length] in L; try lia; cbn [app ravel]; [reflexivity|]. apply IH. lia. Qed.
Lemma ravel_rev dims : forall ds, length ds = length dims -> ravel 0 (rev dims) (rev ds) = colmajor dims ds.
Proof. induction dims as [|d dims IH]; intros [|x ds] L; cbn [length] in L; try lia; [reflexivity|]. cbn [rev colmajor]. rewrite ravel_app by (rewrite !rev_length; lia). rewrite IH by lia. lia. Qed.
