(** Properties C20, C21, C50 and C51: selection and listing of interactions between rootspaces. *)
From Coq Require Import List ZArith Lia Bool Arith Sorting.Permutation Sorting.Sorted.
From Verif Require Import Base BaseFacts SCModel SCSpec SCFacts SCSpin SCMach SCPrint SCBlocks.
Import ListNotations.
Local Open Scope Z_scope.

(** ** C21 *)

Theorem C21_coupled_reachable : forall bra ket, length bra = length ket -> occ_ok bra ->
  (is_interaction_coupled bra ket = true <-> exists k, (k <= 2)%nat /\ reach k ket bra).
Proof. exact coupled_reach. Qed.
Print Assumptions C21_coupled_reachable.

Theorem C21_coupled_symmetric : forall bra ket,
  is_interaction_coupled bra ket = is_interaction_coupled ket bra.
Proof. exact coupled_sym. Qed.
Print Assumptions C21_coupled_symmetric.

(** With multiplicities of the right parity, no C assertion fails, and a pair is accepted exactly
    when [k] electron moves and [e f] spin-changing operator pairs on fragment [f] suffice, two
    operator pairs in all; an operator pair changes the multiplicity by at most 2, a moved electron
    by at most 1. *)
Theorem C21_coupled_spin : forall bra ket sb sk,
  length bra = length ket -> occ_ok bra ->
  Forall2 (fun x s => (s - (fst x + snd x)) mod 2 = 1) bra sb ->
  Forall2 (fun x s => (s - (fst x + snd x)) mod 2 = 1) ket sk ->
  exists c, is_interaction_coupled_s bra ket sb sk = Ok c /\
  (c = true <-> exists k e, reach k ket bra /\
     Forall2 (fun q n =>
       Z.abs (fst (snd q) - snd (snd q)) <=
       Z.abs (fst (fst (fst q)) - fst (snd (fst q))) + Z.abs (snd (fst (fst q)) - snd (snd (fst q)))
       + 2 * Z.of_nat n) (combine (combine bra ket) (combine sb sk)) e /\
     (k + fold_right Nat.add 0 e <= 2)%nat).
Proof. exact coupled_s_spec. Qed.
Print Assumptions C21_coupled_spin.

Theorem C21_coupled_spin_symmetric : forall bra ket sb sk,
  is_interaction_coupled_s bra ket sb sk = is_interaction_coupled_s ket bra sk sb.
Proof. exact coupled_s_sym. Qed.
Print Assumptions C21_coupled_spin_symmetric.

Example C21_example :
  is_interaction_coupled [(2, 1); (1, 1); (0, 1)] [(1, 1); (1, 2); (1, 0)] = true /\
  is_interaction_coupled [(3, 1); (1, 1); (0, 1)] [(0, 1); (1, 1); (3, 1)] = false /\
  is_interaction_coupled [(2, 1); (1, 1)] [(1, 2); (2, 1)] = false /\
  is_interaction_coupled_s [(1, 1); (1, 1)] [(1, 1); (1, 1)] [1; 1] [3; 3] = Ok true /\
  is_interaction_coupled_s [(1, 1); (1, 1)] [(2, 1); (0, 1)] [1; 1] [4; 2] = Ok true /\
  is_interaction_coupled_s [(1, 1); (1, 1)] [(2, 1); (0, 1)] [1; 1] [4; 4] = Ok false.
Proof. vm_compute. repeat split. Qed.

(** ** C20 *)

(** Whatever the division of the two loops among threads and whatever the interleaving, the result
    is the list of coupled pairs in ascending order: below 2^31 pairs. *)
Theorem C20_list_result : forall n coupled c1 c2 r,
  Permutation (concat c1) (seq 0 (n * n)) -> Permutation (concat c2) (seq 0 (n * n)) ->
  Z.of_nat (length (all_pairs n n coupled)) < 2 ^ 31 ->
  scallowed n coupled c1 c2 r -> r = Ok (map as_row (all_pairs n n coupled)).
Proof. intros n coupled c1 c2 r P1 P2. exact (scallowed_result n coupled c1 c2 P1 P2 r). Qed.
Print Assumptions C20_list_result.

(** Every execution is free of out-of-bounds writes, stops, and when no thread can move the list
    above has been produced. *)
Theorem C20_list_total : forall n coupled c1 c2,
  Permutation (concat c1) (seq 0 (n * n)) -> Permutation (concat c2) (seq 0 (n * n)) ->
  let want := all_pairs n n coupled in
  Z.of_nat (length want) < 2 ^ 31 ->
  forall m, steps n (length want) coupled (start (length want) c2) m ->
  fault m = false /\ Acc (fun m2 m1 => step n (length want) coupled m1 m2) m /\
  ((forall m', ~ step n (length want) coupled m m') -> scallowed n coupled c1 c2 (Ok (map as_row want))).
Proof. exact scallowed_total. Qed.
Print Assumptions C20_list_total.

(** The list holds every coupled pair exactly once. *)
Theorem C20_each_once : forall n coupled,
  NoDup (all_pairs n n coupled) /\
  (forall i j, In (i, j) (all_pairs n n coupled) <-> (i < n)%nat /\ (j < n)%nat /\ coupled i j = true).
Proof.
  intros n coupled. unfold all_pairs. split.
  - apply NoDup_filter.
    assert (G : forall (l1 l2 : list nat), NoDup l1 -> NoDup l2 -> NoDup (list_prod l1 l2)).
    { intros l1 l2 H1 H2. induction H1 as [|x l1 Hx H1 IH]; cbn; [constructor|].
      apply NoDup_app_intro; auto.
      - apply FinFun.Injective_map_NoDup; auto. intros a b E. congruence.
      - intros [a b] Hin Hin'. apply in_map_iff in Hin as (c & E & _). injection E as <- <-.
        apply in_prod_iff in Hin' as [Hc _]. auto. }
    apply G; apply seq_NoDup.
  - intros i j. rewrite filter_In, in_prod_iff, !in_seq. cbn [fst snd]. intuition lia.
Qed.
Print Assumptions C20_each_once.

(** The count comes back through a 32-bit int: for 65536 mutually coupled rootspaces the buffers are
    allocated with no rows, and the first write is out of bounds. *)
Theorem C20_count_overflow_refuted : exists n coupled c1 m,
  Permutation (concat c1) (seq 0 (n * n)) /\
  as_c_int (sc_count n coupled c1) = Z.of_nat 0 /\
  steps n 0 coupled (start 0 c1) m /\ fault m = true.
Proof.
  set (n := Z.to_nat 65536). exists n, (fun _ _ => true), [seq 0 (n * n)].
  assert (Hn : (n * n)%nat = S (Z.to_nat (2 ^ 32 - 1))) 
    by (apply Nat2Z.inj; unfold n; rewrite Nat2Z.inj_mul, Nat2Z.inj_succ, !Z2Nat.id by lia; reflexivity).
  eexists. split; [cbn [concat]; rewrite app_nil_r; apply Permutation_refl|]. split; [|split].
  - rewrite sc_count_eq. cbn [concat]. rewrite app_nil_r. unfold keeps. rewrite map_length.
    replace (filter (fun _ : nat => true) (seq 0 (n * n))) with (seq 0 (n * n)).
    + rewrite seq_length. unfold n. rewrite Nat2Z.inj_mul, Z2Nat.id by lia. reflexivity.
    + generalize (seq 0 (n * n)). induction l; cbn; auto. rewrite <- IHl. auto.
  - eapply StepsCons; [|apply StepsRefl]. unfold start. cbn [map].
    eapply (StepKeep n 0 (fun _ _ => true) 0 0 _ [] _ _ 0 None); [|reflexivity].
    rewrite Hn. cbn [seq]. reflexivity.
  - reflexivity.
Qed.
Print Assumptions C20_count_overflow_refuted.

(** two threads on a 3x3 table, second thread appending first *)
Definition ex_coupled (i j : nat) : bool := Nat.even (i + j).
Example C20_example : map as_row (all_pairs 3 3 ex_coupled) = [(0, 0); (0, 2); (1, 1); (2, 0); (2, 2)] /\
  sc_count 3 ex_coupled [[0; 1; 2; 3; 4]; [5; 6; 7; 8]]%nat = 5 /\
  sort_rows (rows_of [2; 0; 2; 2; 0; 0; 0; 2; 1; 1]) = map as_row (all_pairs 3 3 ex_coupled).
Proof. vm_compute. repeat split. Qed.

(** ** C50 *)

Theorem C50_sort : forall l, Permutation (bubblesort l) l /\ StronglySorted Z.le (bubblesort l).
Proof. exact bubblesort_sorts. Qed.
Print Assumptions C50_sort.

(** The lower-triangular fingerprint is the same for (bra, ket) and (ket, bra). *)
Theorem C50_bra_ket_swap : forall uroot bra ket frags,
  snd (fp_row uroot bra ket frags) = snd (fp_row uroot ket bra frags).
Proof. exact fp_swap. Qed.
Print Assumptions C50_bra_ket_swap.

(** Fingerprints do not depend on the order of the fragments, nor on other fragments. *)
Theorem C50_fragment_order : forall uroot bra ket f1 f2, Permutation f1 f2 ->
  fp_row uroot bra ket f1 = fp_row uroot bra ket f2.
Proof. exact fp_frag_order. Qed.
Theorem C50_spectators : forall uroot uroot' bra ket bra' ket' frags,
  (forall f, In f frags -> uroot bra f = uroot' bra' f /\ uroot ket f = uroot' ket' f) ->
  fp_row uroot bra ket frags = fp_row uroot' bra' ket' frags.
Proof. exact fp_spectators. Qed.
Print Assumptions C50_spectators.

(** They do not identify the statelets uniquely: two rows of 63-bit words with one hash. *)
Theorem C50_unique_refuted : exists r1 r2, length r1 = length r2 /\
  Forall (fun x => 0 <= x < 2 ^ 63) (r1 ++ r2) /\ r1 <> r2 /\ fnv_1a r1 = fnv_1a r2.
Proof.
  exists [0; 1; 5], [0; 2; 1099511628472]. split; [reflexivity|]. split; [repeat constructor; vm_compute; congruence|].
  split; [congruence|vm_compute; reflexivity].
Qed.
Print Assumptions C50_unique_refuted.

Example C50_example :
  let u := fun r f => nth (Z.to_nat f) (nth (Z.to_nat r) [[3; 4; 7]; [3; 5; 1]; [2; 4; 7]] []) 0 in
  bubblesort [2; 0; 1; 0] = [0; 0; 1; 2] /\
  fst (fp_row u 0 1 [2; 1]) <> fst (fp_row u 1 0 [2; 1]) /\
  snd (fp_row u 0 1 [2; 1]) = snd (fp_row u 1 0 [1; 2]) /\
  fp_row u 0 1 [2; 1] = fp_row u 2 1 [2; 1].
Proof. vm_compute. repeat split. congruence. Qed.

(** ** C51 *)

(** The blocks are the maximal runs of a mask; with no True entry one offset too many comes back. *)
Theorem C51_contig_blocks : forall mask, let '(src, dest, len) := get_contig_blks mask in
  length len = length dest /\
  flat_map (fun q => seq (fst q) (snd q)) (combine dest len)
  = filter (fun k => nth k mask false) (seq 0 (length mask)) /\
  (forall k, (k < length len)%nat -> nth k src 0%nat = fold_right Nat.add 0%nat (firstn k len)) /\
  (In true mask -> length src = length dest).
Proof. exact contig_blocks. Qed.
Print Assumptions C51_contig_blocks.

Theorem C51_contig_maximal : forall mask, let '(src, dest, len) := get_contig_blks mask in
  forall s n, In (s, n) (combine dest len) ->
  (0 < n)%nat /\ ((0 < s)%nat -> nth (s - 1) mask false = false) /\ nth (s + n) mask false = false.
Proof. exact contig_maximal. Qed.
Print Assumptions C51_contig_maximal.

Theorem C51_contig_empty_refuted : exists mask, let '(src, dest, _) := get_contig_blks mask in
  length src <> length dest.
Proof. exists [false]. vm_compute. congruence. Qed.

(** Division of [arrlen] elements among threads: nonempty, gap-free, balanced. *)
Theorem C51_split_array : forall arrlen nthreads, (0 < arrlen)%nat -> (0 < nthreads)%nat ->
  exists st len, split_contig_array arrlen nthreads = Ok (st, len) /\
  length st = Nat.min arrlen nthreads /\ length len = Nat.min arrlen nthreads /\
  fold_right Nat.add 0%nat len = arrlen /\
  (forall k, (k < length len)%nat -> nth k st 0%nat = fold_right Nat.add 0%nat (firstn k len)) /\
  (forall k, (k < length len)%nat ->
     (arrlen / Nat.min arrlen nthreads <= nth k len 0 <= S (arrlen / Nat.min arrlen nthreads))%nat
     /\ (1 <= nth k len 0)%nat).
Proof. exact split_contig_ok. Qed.
Print Assumptions C51_split_array.

Theorem C51_split_array_zero : forall arrlen nthreads, (arrlen = 0 \/ nthreads = 0)%nat ->
  split_contig_array arrlen nthreads = Raise ZeroDivisionError.
Proof. intros a n [->| ->]; unfold split_contig_array; [|rewrite Nat.min_0_r]; reflexivity. Qed.
Print Assumptions C51_split_array_zero.

Example C51_example :
  get_contig_blks [true; true; false; true; false; true; true; true]
  = ([0; 2; 3], [0; 3; 5], [2; 1; 3])%nat /\
  split_contig_array 10 4 = Ok ([0; 3; 6; 8], [3; 3; 2; 2])%nat /\
  split_contig_array 2 4 = Ok ([0; 1], [1; 1])%nat.
Proof. vm_compute. repeat split. Qed.
