(** The sign functions of lassi/op_o1/utilities.py as parities. *)
From Coq Require Import List Arith Bool Lia.
From Verif Require Import Base BaseFacts FockSpec FockFacts ProdFock PermFock LprodSpec LasFock LasElem SignsModel SignsFacts.
Import ListNotations.
Local Open Scope nat_scope.

Lemma odd_sumN l : Nat.odd (sumN l) = parity Nat.odd l.
Proof. induction l as [|x l IH]; [reflexivity|]. rewrite parity_cons, <- IH. unfold sumN. cbn [fold_right]. apply Nat.odd_add. Qed.
Lemma parity_filter {A} (p f : A -> bool) l : parity f (filter p l) = parity (fun x => p x && f x) l.
Proof. induction l as [|x l IH]; [reflexivity|]. cbn [filter]. rewrite parity_cons. destruct (p x); cbn [andb]; rewrite ?parity_cons, IH; [reflexivity|now rewrite xorb_false_l]. Qed.
Lemma filter_all {A} (p : A -> bool) l : (forall x, In x l -> p x = true) -> filter p l = l.
Proof. induction l as [|x l IH]; intros H; [reflexivity|]. cbn [filter]. rewrite (H x (or_introl eq_refl)), IH; [reflexivity|]. intros; apply H; now right. Qed.

Section S.
Variables (nf : nat) (en : nat -> nat).
Notation nelec := (map en (seq 0 nf)).
Lemma pyget_nelec f : f < nf -> pyget nelec f = Ok (en f).
Proof. intros H. unfold pyget. rewrite nth_error_map, nth_error_nth' with (d := 0) by (rewrite seq_length; lia). cbn. rewrite seq_nth by lia. reflexivity. Qed.
Lemma mapM_nelec l : (forall f, In f l -> f < nf) -> mapM (pyget nelec) l = Ok (map en l).
Proof. induction l as [|f l IH]; intros H; [reflexivity|]. cbn [mapM map]. rewrite pyget_nelec by (apply H; now left). cbn [bind]. rewrite IH by (intros; apply H; now right). reflexivity. Qed.
(** spectator electrons from f0 to f *)
Definition btw (P : nat -> bool) (f0 f : nat) : nat := sumN (map en (filter (fun g => negb (P g) && (f0 <? g)) (seq 0 f))).
Lemma btw_step P f0 l f : f0 <= l -> l < f -> P l = true -> (forall j, l < j < f -> P j = false) -> btw P f0 f = btw P f0 l + sumN (map en (seq (S l) (f - S l))).
Proof.
  intros H0 Hl Pl Hn. unfold btw. replace f with (l + S (f - S l)) at 1 by lia. rewrite seq_app, filter_app, map_app, sumN_app. f_equal. cbn [Nat.add seq filter]. rewrite Pl. cbn [negb andb].
  replace (filter _ (seq (S l) (f - S l))) with (seq (S l) (f - S l)); [reflexivity|]. symmetry. apply filter_all. intros g Hg. apply in_seq in Hg. rewrite Hn by lia. cbn [negb andb]. apply Nat.ltb_lt. lia.
Qed.
Lemma frag_loop_btw P f0 rest : forall l np, f0 <= l -> l < nf -> P l = true -> rest = filter P (seq (S l) (nf - S l)) ->
  frag_loop nelec l rest (btw P f0 l) np = Ok (np + sumN (map (fun f => en f * btw P f0 f) rest)).
Proof.
  induction rest as [|f rest IH]; intros l np H0 Hl Pl Hr; cbn [frag_loop map].
  - now rewrite Nat.add_0_r.
  - symmetry in Hr. apply (filter_seq_split []) in Hr as (A & B & D & F).
    assert (HU : (if l + 1 <? f then do s <- sum_at nelec (seq (l + 1) (f - (l + 1))) ;; Ok (btw P f0 l + s) else Ok (btw P f0 l)) = Ok (btw P f0 f)).
    { rewrite (btw_step P f0 l f) by (auto; try lia; intros; apply D; lia). destruct (Nat.ltb_spec (l + 1) f).
      - unfold sum_at. rewrite mapM_nelec by (intros g Hg; apply in_seq in Hg; lia). cbn [bind]. now rewrite Nat.add_1_r.
      - replace (f - S l) with 0 by lia. cbn. f_equal. lia. }
    rewrite HU. cbn [bind].
    assert (HP : (if Nat.eqb (btw P f0 f) 0 then Ok np else do m <- pyget nelec f ;; Ok (np + m * btw P f0 f)) = Ok (np + en f * btw P f0 f)).
    { destruct (Nat.eqb_spec (btw P f0 f) 0) as [->|]; [f_equal; lia|]. rewrite pyget_nelec by lia. reflexivity. }
    rewrite HP. cbn [bind]. rewrite IH; [rewrite sumN_cons; f_equal; lia|lia|lia|exact B|].
    rewrite F. f_equal. f_equal. lia.
Qed.
Lemma btw_parity P f0 f : Nat.odd (btw P f0 f) = parity (fun g => negb (P g) && (f0 <? g) && Nat.odd (en g)) (seq 0 f).
Proof. unfold btw. rewrite odd_sumN, parity_map, parity_filter. reflexivity. Qed.
Lemma parity_upto (c : nat -> bool) f : f <= nf -> parity c (seq 0 f) = parity (fun g => (g <? f) && c g) (seq 0 nf).
Proof.
  intros H. replace nf with (f + (nf - f)) by lia. rewrite seq_app, parity_app. rewrite (parity_false _ (seq (0 + f) (nf - f))).
  - rewrite xorb_false_r. apply parity_ext. intros g Hg. apply in_seq in Hg. destruct (Nat.ltb_spec g f); [reflexivity|lia].
  - intros g Hg. apply in_seq in Hg. destruct (Nat.ltb_spec g f); [lia|reflexivity].
Qed.
Lemma parity_split (c : nat -> bool) f : f < nf -> parity c (seq 0 nf) = xorb (parity c (seq 0 f)) (xorb (c f) (parity c (seq (S f) (nf - S f)))).
Proof. intros H. replace nf with (f + S (nf - S f)) at 1 by lia. rewrite seq_app, parity_app. cbn [seq Nat.add]. now rewrite parity_cons. Qed.
Definition podd (f : nat) : bool := Nat.odd (en f).
Lemma frag_shuffle_fsh fl f0 : Forall (fun f => f < 8) fl -> Forall (fun f => f < nf) fl -> In f0 fl -> (forall f, In f fl -> f0 <= f) ->
  fermion_frag_shuffle nelec fl = Ok (fsh nf (fun f => mem f fl) f0 podd).
Proof.
  intros H8 Hn I0 Hmin. unfold fermion_frag_shuffle. rewrite (list_set_ascending fl nf) by assumption. cbn [bind]. set (P := fun f => mem f fl).
  destruct (filter P (seq 0 nf)) as [|l rest] eqn:E.
  - exfalso. assert (I : In f0 (filter P (seq 0 nf))) by (apply filter_In; split; [apply in_seq; rewrite Forall_forall in Hn; specialize (Hn _ I0); lia|now apply mem_iff]). now rewrite E in I.
  - apply (filter_seq_split []) in E as (A & B & D & F). assert (l = f0).
    { assert (f0 <= l) by (apply Hmin, mem_iff; exact B). destruct (le_lt_dec l f0); [lia|]. assert (P f0 = false) by (apply D; lia). assert (P f0 = true) by now apply mem_iff. congruence. }
    subst l. cut (btw P f0 f0 = 0); [intros EZ|].
    + assert (FL : frag_loop nelec f0 rest (btw P f0 f0) 0 = Ok (0 + sumN (map (fun f => en f * btw P f0 f) rest))).
      { apply frag_loop_btw; [lia|lia|exact B|]. rewrite F. f_equal; f_equal; lia. }
      rewrite EZ in FL. rewrite FL. cbn [bind]. f_equal. unfold sign. rewrite Nat.add_0_l, odd_sumN, parity_map.
      unfold fsh. replace (parity (fun f => P f && podd f && parity (fun g => negb (P g) && (f0 <? g) && (g <? f) && podd g) (seq 0 nf)) (seq 0 nf)) with (parity (fun f => podd f && parity (fun g => negb (P g) && (f0 <? g) && (g <? f) && podd g) (seq 0 nf)) rest).
      * apply parity_ext. intros f Hf. rewrite Nat.odd_mul, btw_parity. f_equal. rewrite F in Hf. apply filter_In in Hf as [Hf _]. apply in_seq in Hf. rewrite parity_upto by lia. apply parity_ext. intros g _. unfold podd.
        destruct (P g), (f0 <? g), (g <? f), (Nat.odd (en g)); reflexivity.
      * rewrite F, parity_filter. etransitivity; [|symmetry; apply (parity_split _ f0); lia]. rewrite (parity_false _ (seq 0 f0)).
        -- rewrite xorb_false_l. replace (parity (fun g => negb (P g) && (f0 <? g) && (g <? f0) && podd g) (seq 0 nf)) with false.
           ++ rewrite andb_false_r, xorb_false_l. replace (0 + nf - S f0) with (nf - S f0) by lia. apply parity_ext. intros f _. now rewrite andb_assoc.
           ++ symmetry. apply parity_false. intros g _. destruct (Nat.ltb_spec f0 g), (Nat.ltb_spec g f0); try lia; now rewrite ?andb_false_r.
        -- intros f Hf. apply in_seq in Hf. rewrite D by lia. reflexivity.
    + unfold btw. replace (filter _ (seq 0 f0)) with (@nil nat); [reflexivity|]. symmetry. induction (seq 0 f0) as [|x l IH] eqn:S in |- *; [reflexivity|].
      assert (G : forall l, (forall x, In x l -> x < f0) -> filter (fun g => negb (P g) && (f0 <? g)) l = []).
      { induction l0 as [|y l0 IHl]; intros Hy; [reflexivity|]. cbn [filter]. destruct (Nat.ltb_spec f0 y); [specialize (Hy y (or_introl eq_refl)); lia|]. rewrite andb_false_r. apply IHl. intros; apply Hy; now right. }
      rewrite <- S. apply G. intros y Hy. apply in_seq in Hy. lia.
Qed.
Lemma index_of_app i (hi low : list nat) : ~ In i hi -> index_of i (hi ++ i :: low) = Some (length hi).
Proof. intros N. induction hi as [|x hi IH]; cbn; [now rewrite Nat.eqb_refl|]. cbn in N. destruct (Nat.eqb_spec i x) as [->|]; [tauto|]. now rewrite IH by tauto. Qed.
Lemma des_shuffle_abv fl i : Forall (fun f => f < 8) fl -> Forall (fun f => f < nf) fl -> In i fl ->
  fermion_des_shuffle nelec fl i = Ok (abv nf (fun f => mem f fl) podd i).
Proof.
  intros H8 Hn Hi. unfold fermion_des_shuffle. replace (existsb (Nat.eqb i) fl) with true by (symmetry; apply existsb_exists; exists i; split; auto; apply Nat.eqb_refl).
  cbn [py_assert]. rewrite (list_set_ascending fl nf) by assumption. cbn [bind]. set (P := fun f => mem f fl). assert (Li : i < nf) by (rewrite Forall_forall in Hn; auto).
  rewrite mapM_nelec by (intros f Hf; apply in_rev, filter_In in Hf as [Hf _]; apply in_seq in Hf; lia). cbn [bind].
  assert (E : rev (filter P (seq 0 nf)) = rev (filter P (seq (S i) (nf - S i))) ++ i :: rev (filter P (seq 0 i))).
  { replace nf with (i + S (nf - S i)) at 1 by lia. rewrite seq_app, filter_app, rev_app_distr. cbn [Nat.add seq filter]. assert (Pi : P i = true) by now apply mem_iff. rewrite Pi. cbn [rev]. now rewrite <- app_assoc. }
  rewrite E. rewrite index_of_app by (rewrite <- in_rev, filter_In, in_seq; lia). f_equal. unfold sign. rewrite map_app. rewrite <- (map_length en (rev (filter P (seq (S i) (nf - S i))))) at 1. rewrite firstn_app, firstn_all, Nat.sub_diag. cbn [firstn]. rewrite app_nil_r.
  rewrite odd_sumN, parity_map. rewrite <- (parity_perm _ _ _ (Sorting.Permutation.Permutation_rev _)), parity_filter.
  unfold abv. replace nf with (S i + (nf - S i)) at 2 by lia. rewrite seq_app, parity_app. rewrite (parity_false _ (seq 0 (S i))).
  - rewrite xorb_false_l. cbn [Nat.add]. apply parity_ext. intros g Hg. apply in_seq in Hg. destruct (Nat.ltb_spec i g); [|lia]. now rewrite andb_true_r.
  - intros g Hg. apply in_seq in Hg. destruct (Nat.ltb_spec i g); [lia|]. now rewrite andb_false_r.
Qed.
End S.
Lemma spin_shuffle_spar nf (ne : nat -> nat * nat) :
  fermion_spin_shuffle (map (fun f => fst (ne f)) (seq 0 nf)) (map (fun f => snd (ne f)) (seq 0 nf)) = Ok (spar nf ne).
Proof.
  unfold fermion_spin_shuffle. rewrite !map_length, Nat.eqb_refl. cbn [py_assert]. f_equal. unfold sign. rewrite odd_sumN, parity_map. unfold spar.
  destruct nf as [|k]; [reflexivity|]. cbn [seq map tl]. rewrite map_length, seq_length.
  rewrite (parity_ext (fun f => Nat.odd (fst (ne f)) && parity (fun g => (f <? g) && Nat.odd (snd (ne g))) (0 :: seq 1 k)) (fun f => parity (fun g => Nat.odd (fst (ne f)) && ((f <? g) && Nat.odd (snd (ne g)))) (seq 0 (S k)))) by (intros; now rewrite parity_and).
  change (0 :: seq 1 k) with (seq 0 (S k)). rewrite parity_swap. cbn [seq]. rewrite parity_cons. rewrite (parity_false _ (0 :: seq 1 k)) by (intros f _; cbn; apply andb_false_r). rewrite xorb_false_l.
  assert (G : forall j s (L : list nat), s + j <= k -> length L = S k -> L = map (fun f => fst (ne f)) (seq 0 (S k)) ->
    parity (fun x => Nat.odd (sumN (firstn (fst x + 1) L) * snd x)) (combine (seq s j) (map (fun f => snd (ne f)) (seq (S s) j))) =
    parity (fun g => parity (fun f => Nat.odd (fst (ne f)) && ((f <? g) && Nat.odd (snd (ne g)))) (seq 0 (S k))) (seq (S s) j)).
  { induction j as [|j IH]; intros s L Hs HL EL; [reflexivity|]. specialize (IH (S s) L). remember (seq 0 (S k)) as SK eqn:ESK. cbn [seq map combine]. rewrite !parity_cons, IH by (auto; lia). f_equal. subst SK. cbn [fst snd]. rewrite Nat.odd_mul, EL, firstn_map.
    replace (firstn (s + 1) (seq 0 (S k))) with (seq 0 (S s)).
    - rewrite odd_sumN, parity_map. rewrite (parity_upto (S k) (fun x => Nat.odd (fst (ne x)))) by lia. rewrite andb_comm, <- parity_and. apply parity_ext. intros f _.
      destruct (f <? S s), (Nat.odd (fst (ne f))), (Nat.odd (snd (ne (S s)))); reflexivity.
    - replace (S k) with (S s + (k - s)) by lia. rewrite seq_app, firstn_app, seq_length. replace (s + 1 - S s) with 0 by lia. cbn [firstn]. rewrite app_nil_r, firstn_all2; [reflexivity|rewrite seq_length; lia]. }
  apply (G k 0); [lia| |reflexivity]. cbn [length map]. now rewrite map_length, seq_length.
Qed.
