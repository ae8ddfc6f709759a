(** Property C43: symmetrisation of tensors. *)
From Coq Require Import List Arith QArith Lia Permutation.
From Verif Require Import BaseFacts TensModel TensFacts.
Import ListNotations.
Local Open Scope nat_scope.

(** Specification: the index list of an n-electron tensor is a list of n (bra, ket) pairs, flattened.
    A tensor is electron-symmetric if reordering the pairs does not matter, and hermitian (real) if
    exchanging bra and ket in all pairs does not matter. *)
Definition elec_sym (n : nat) (t : tensor) : Prop :=
  forall l l', length l = n -> Permutation l l' -> (t (flat l) == t (flat l'))%Q.
Definition herm (n : nat) (t : tensor) : Prop :=
  forall l, length l = n -> (t (flat (map (fun p => (snd p, fst p)) l)) == t (flat l))%Q.
(** all index lists of a tensor of rank r and dimension d *)
Definition all_indices (r d : nat) (I : list (list nat)) : Prop :=
  NoDup I /\ forall i, In i I <-> length i = r /\ forall x, In x i -> x < d.

Lemma fact_nz n : ~ (inject_Z (factorial n) == 0)%Q.
Proof. intros H. unfold Qeq in H. cbn in H. pose proof (fact_pos n). lia. Qed.

Theorem C43_symmetric : forall n t, elec_sym n (symmetrize_elec n t).
Proof.
  intros n t l l' Hl H. assert (Hl' : length l' = n) by (rewrite <- Hl; symmetry; now apply Permutation_length).
  rewrite !symmetrize_elec_avg by assumption. apply Qmult_comp; [|reflexivity]. apply qsum_perm, Permutation_map.
  destruct (gather_perm _ _ H) as (q & Hq & ->). rewrite Hl in Hq. rewrite <- (gather_self n l Hl) at 1. unfold gather. rewrite !perms_map.
  apply Permutation_map. apply NoDup_Permutation.
  - apply perms_nodup; [apply seq_length | apply seq_NoDup].
  - destruct (is_perm_facts _ _ Hq) as (L & D & _). now apply perms_nodup.
  - destruct (is_perm_facts _ _ Hq) as (L & D & _). intros p. rewrite !perms_in by (auto using seq_length). unfold is_perm in Hq. now rewrite Hq.
Qed.
Print Assumptions C43_symmetric.

Theorem C43_fixpoint : forall n t, elec_sym n t -> forall i, length i = 2 * n -> (symmetrize_elec n t i == t i)%Q.
Proof.
  intros n t H i Hi. destruct (flat_ex n i Hi) as (l & -> & Hl). rewrite symmetrize_elec_avg by exact Hl.
  rewrite (qsum_ext _ (fun _ => t (flat l))).
  - rewrite qsum_const, perms_length by exact Hl. field. apply fact_nz.
  - intros l' Hl'. apply perms_in in Hl'; [|exact Hl]. symmetry. now apply H.
Qed.
Print Assumptions C43_fixpoint.

Theorem C43_idempotent : forall n t i, length i = 2 * n -> (symmetrize_elec n (symmetrize_elec n t) i == symmetrize_elec n t i)%Q.
Proof. intros n t. apply C43_fixpoint, C43_symmetric. Qed.
Print Assumptions C43_idempotent.

Lemma map_perm_self {X} (f : X -> X) l : NoDup l -> (forall x, In x l -> In (f x) l) -> (forall x y, In x l -> In y l -> f x = f y -> x = y) -> Permutation (map f l) l.
Proof.
  intros D C J. apply NoDup_Permutation_bis; [|now rewrite map_length|].
  - clear C. induction l as [|x l IH]; cbn; constructor; inversion D; subst.
    + intros H. apply in_map_iff in H as (y & E & Hy). apply J in E; [subst; contradiction | now right | now left].
    + apply IH; auto. intros a b Ha Hb. apply J; now right.
  - intros x Hx. apply in_map_iff in Hx as (y & <- & Hy). now apply C.
Qed.
Theorem C43_sum : forall n d t I, all_indices (2 * n) d I ->
  (qsum (map (symmetrize_elec n t) I) == qsum (map t I))%Q.
Proof.
  intros n d t I [D M].
  assert (Ex : exists J, I = map flat J /\ forall l, In l J <-> length l = n /\ forall x, In x (flat l) -> x < d).
  { assert (W : forall I, (forall i, In i I -> length i = 2 * n) -> exists J, I = map flat J).
    { clear. induction I as [|i I IH]; intros H; [now exists []|]. destruct IH as [J ->]; [intros; apply H; now right|].
      destruct (flat_ex n i) as (l & -> & _); [apply H; now left|]. now exists (l :: J). }
    destruct (W I) as [J ->]; [intros i Hi; now apply M in Hi|]. exists J. split; [reflexivity|]. intros l.
    specialize (M (flat l)). rewrite flat_length in M. rewrite in_map_iff in M. split.
    - intros Hl. destruct (proj1 M) as [M1 M2]; [now exists l|]. split; [lia | exact M2].
    - intros [H1 H2]. destruct (proj2 M) as (l0 & E & H0); [split; [lia | exact H2]|]. apply flat_inj in E. now subst. }
  destruct Ex as (J & -> & MJ). apply NoDup_map_inv in D. clear M.
  rewrite !map_map. rewrite (qsum_ext _ (fun l => qsum (map (fun p => t (flat (gather p l))) (permutations n)) / inject_Z (factorial n)))%Q.
  2:{ intros l Hl. apply MJ in Hl as [Hl _]. rewrite symmetrize_elec_avg by exact Hl. apply Qmult_comp; [|reflexivity].
      transitivity (qsum (map (fun l' => t (flat l')) (perms_ n (gather (seq 0 n) l)))); [now rewrite gather_self|].
      unfold gather at 1. rewrite perms_map, map_map. reflexivity. }
  unfold Qdiv. rewrite (qsum_scale (fun l => qsum (map (fun p => t (flat (gather p l))) (permutations n)))).
  rewrite qsum_swap. rewrite (qsum_ext _ (fun _ => qsum (map (fun l => t (flat l)) J))).
  - rewrite qsum_const. unfold permutations. rewrite perms_length by apply seq_length. field. apply fact_nz.
  - intros p Hp. apply perms_in in Hp; [|apply seq_length]. destruct (is_perm_facts _ _ Hp) as (Lp & Dp & Mp).
    rewrite <- (map_map (gather p) (fun l => t (flat l))). apply qsum_perm, Permutation_map. apply map_perm_self; [exact D| |].
    + intros l Hl. apply MJ in Hl as [Hl Hd]. apply MJ. split; [unfold gather; now rewrite map_length|].
      intros x Hx. apply Hd. unfold flat in *. apply in_flat_map in Hx as (q & Hq & Hx). apply in_flat_map. exists q. split; [|exact Hx].
      unfold gather in Hq. apply in_map_iff in Hq as (k & <- & Hk). apply nth_In. apply Mp in Hk. lia.
    + intros l l' Hl Hl' E. apply MJ in Hl as [Hl _]. apply MJ in Hl' as [Hl' _]. apply (nth_ext _ _ (0, 0) (0, 0)); [lia|].
      intros k Hk. destruct (index_of_nth p k 0) as [H1 H2]; [apply Mp; lia|].
      assert (forall l, nth (index_of k p) (gather p l) (0, 0) = nth k l (0, 0)) as G.
      { intros l0. unfold gather. rewrite nth_indep with (d' := (fun k => nth k l0 (0, 0)) 0) by (now rewrite map_length).
        rewrite (map_nth (fun k => nth k l0 (0, 0))). now rewrite H2. }
      rewrite <- !G. now rewrite E.
Qed.
Print Assumptions C43_sum.

(** symmetrize_tensor: both symmetries hold for the result, and tensors with both are unchanged *)
Theorem C43_both : forall n t, elec_sym n (symmetrize_tensor n t) /\ herm n (symmetrize_tensor n t).
Proof.
  intros n t. split; [apply C43_symmetric|]. intros l Hl. unfold symmetrize_tensor. change (fun p : nat * nat => (snd p, fst p)) with swap.
  rewrite !symmetrize_elec_avg by (now rewrite ?map_length). apply Qmult_comp; [|reflexivity]. rewrite perms_map, map_map.
  apply qsum_ext. intros l' Hl'. apply perms_in in Hl'; [|exact Hl]. apply Permutation_length in Hl'.
  unfold symmetrize_conj. rewrite !transpose_conj by (rewrite ?map_length; lia). rewrite map_map.
  assert (map (fun x => swap (swap x)) l' = l') as -> by (rewrite (map_ext _ (fun x => x)); [apply map_id | now intros []]).
  apply Qmult_comp; [ring | reflexivity].
Qed.
Print Assumptions C43_both.
Theorem C43_both_fixpoint : forall n t, elec_sym n t -> herm n t -> forall i, length i = 2 * n -> (symmetrize_tensor n t i == t i)%Q.
Proof.
  intros n t H1 H2. assert (E : forall l, length l = n -> (symmetrize_conj n t (flat l) == t (flat l))%Q).
  { intros l Hl. unfold symmetrize_conj. rewrite transpose_conj by exact Hl. change swap with (fun p : nat * nat => (snd p, fst p)). rewrite (H2 l Hl). field. }
  intros i Hi. unfold symmetrize_tensor. destruct (flat_ex n i Hi) as (l & -> & Hl). rewrite C43_fixpoint; [now apply E| |exact Hi].
  intros a b Ha P. rewrite !E by (rewrite <- ?(Permutation_length P); exact Ha). now apply H1.
Qed.
Print Assumptions C43_both_fixpoint.

(** Two electrons, tensor counting in base 10; three electrons average six rearrangements *)
Definition ex_t : tensor := fun i => inject_Z (fold_left (fun a x => 10 * a + Z.of_nat x)%Z i 0%Z).
Example C43_example :
  (symmetrize_elec 2 ex_t [1; 2; 3; 4]%nat == 2323)%Q /\ (symmetrize_elec 2 ex_t [3; 4; 1; 2]%nat == 2323)%Q
  /\ (symmetrize_elec 1 ex_t [1; 2]%nat == 12)%Q /\ (symmetrize_tensor 2 ex_t [1; 2; 3; 4]%nat == 5555 # 2)%Q
  /\ (symmetrize_elec 3 ex_t [0; 0; 0; 3; 1; 0]%nat == (10 + 3) * 10101 / 3)%Q /\ ~ elec_sym 2 ex_t.
Proof.
  repeat split; try reflexivity. intros H. specialize (H [(1, 2); (3, 4)] [(3, 4); (1, 2)] eq_refl (perm_swap _ _ _)). discriminate.
Qed.
