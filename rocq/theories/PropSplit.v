(** C77: get_orth_basis sorts all rootspaces into manifolds whose rows are m strings and whose columns are spin multiplets. *)
From Coq Require Import List Bool Arith ZArith Lia Sorting.Permutation Sorting.Sorted.
From Verif Require Import Base BaseFacts SplitModel SplitFacts.
Import ListNotations.
Local Open Scope nat_scope.

(** the rootspaces of a manifold *)
Definition roots_of (m : list mblock) : list nat := concat (map b_roots m).
(** all rootspaces (of [idx]) with one m string *)
Definition all_with (spins : nat -> row) (dom : nat -> Prop) (b : mblock) : Prop := b_roots b <> [] /\ NoDup (b_roots b) /\ forall r, In r (b_roots b) <-> dom r /\ spins r = b_str b.
(** rows of one manifold correspond to one another, root by root *)
Definition matched (fprint : nat -> row) (m : list mblock) : Prop := forall b b', In b m -> In b' m -> map fprint (b_roots b) = map fprint (b_roots b').

Section Idx.
Variables (nf n : nat) (with_smult has1st : bool) (spins fprint : nat -> row).
Notation blk m := (filter (fun r => row_eqb (spins r) m) (seq 0 n)).
Notation split_idx := (split_idx nf n with_smult has1st spins fprint).
Lemma blk_in m r : In r (blk m) <-> r < n /\ spins r = m.
Proof. rewrite filter_In, in_seq, row_eqb_spec. intuition lia. Qed.
Definition raw : list mblock := map (fun m => mkB m (blk m) (has1st && (nth 0 (blk m) 0 =? 0))) (np_unique (map spins (seq 0 n))).
Lemma blk_first m : In m (np_unique (map spins (seq 0 n))) -> (nth 0 (blk m) 0 =? 0) = true <-> In 0 (blk m).
Proof.
  intros Hm. apply np_unique_in, in_map_iff in Hm as (r & <- & Hr). apply in_seq in Hr. set (m := spins r). rewrite Nat.eqb_eq. split.
  - intros E. assert (In r (blk m)) by (apply blk_in; split; [lia|reflexivity]). destruct (blk m) as [|x l]; [contradiction|]. cbn [nth] in E. subst. left. reflexivity.
  - intros H. apply blk_in in H as [Hn H]. destruct n as [|n0]; [lia|]. cbn [seq filter]. rewrite (proj2 (row_eqb_spec _ _) H). reflexivity.
Qed.
Lemma nodup_blk m : NoDup (blk m). Proof. apply NoDup_filter, seq_NoDup. Qed.
Definition good (b : mblock) : Prop := In (b_str b) (np_unique (map spins (seq 0 n))) /\ Permutation (b_roots b) (blk (b_str b)) /\ (b_first b = true <-> has1st = true /\ In 0 (b_roots b)).
Lemma raw_good b : In b raw -> good b.
Proof.
  unfold raw. intros H. apply in_map_iff in H as (m & <- & Hm). split; [exact Hm|]. cbn [b_str b_roots b_first]. split; [reflexivity|]. rewrite andb_true_iff, (blk_first m Hm). reflexivity.
Qed.
Lemma raw_roots : Permutation (roots_of raw) (seq 0 n).
Proof. unfold roots_of, raw. rewrite map_map. cbn [b_roots]. apply split_unique. Qed.
Lemma raw_strs : map b_str raw = np_unique (map spins (seq 0 n)).
Proof. unfold raw. rewrite map_map. cbn [b_str]. apply map_id. Qed.
Definition sorted_raw : list mblock := map (fun b => mkB (b_str b) (sort_by nf fprint (b_roots b)) (b_first b)) raw.
Lemma sorted_good b : In b sorted_raw -> good b.
Proof.
  unfold sorted_raw. intros H. apply in_map_iff in H as (c & <- & Hc). apply raw_good in Hc as (H1 & H2 & H3). split; [exact H1|]. cbn [b_str b_roots b_first]. split; [rewrite sort_by_perm; exact H2|]. rewrite H3. split; intros [H4 H5]; (split; [exact H4|]); [apply (Permutation_in _ (Permutation_sym (sort_by_perm nf fprint _)) H5)|apply (Permutation_in _ (sort_by_perm nf fprint _) H5)].
Qed.
Lemma sorted_roots : Permutation (roots_of sorted_raw) (seq 0 n).
Proof. rewrite <- raw_roots. unfold roots_of, sorted_raw. rewrite map_map. cbn [b_roots]. apply concat_perm. intros b _. apply sort_by_perm. Qed.
Lemma good_all b : good b -> all_with spins (fun r => r < n) b.
Proof.
  intros (H1 & H2 & _). assert (X : forall r, In r (b_roots b) <-> r < n /\ spins r = b_str b) by (intros r; rewrite <- blk_in; split; apply Permutation_in; [exact H2|symmetry; exact H2]).
  split; [|split; [apply (Permutation_NoDup (Permutation_sym H2)), nodup_blk|exact X]]. apply np_unique_in, in_map_iff in H1 as (r & E & Hr). intros H. apply (in_nil (a:=r)). rewrite <- H. apply X. apply in_seq in Hr. split; [lia|exact E].
Qed.
Definition key (b : mblock) : row := concat (map fprint (b_roots b)).
Definition grouped : list (list mblock) := map (fun u => sort_by nf b_str (filter (fun b => row_eqb (key b) u) sorted_raw)) (np_unique (map key sorted_raw)).
Lemma grouped_perm : Permutation (concat grouped) sorted_raw.
Proof. unfold grouped. rewrite (concat_perm _ (fun u => filter (fun b => row_eqb (key b) u) sorted_raw)) by (intros u _; apply sort_by_perm). apply split_unique. Qed.
Lemma in_grouped m b : In m grouped -> In b m -> In b sorted_raw.
Proof. intros Hm Hb. apply (Permutation_in _ grouped_perm). apply in_concat. exists m. auto. Qed.
Lemma same_key m b b' : In m grouped -> In b m -> In b' m -> key b = key b'.
Proof.
  unfold grouped. intros Hm Hb Hb'. apply in_map_iff in Hm as (u & <- & _). apply (Permutation_in _ (sort_by_perm _ _ _)), filter_In in Hb as [_ Hb]. apply (Permutation_in _ (sort_by_perm _ _ _)), filter_In in Hb' as [_ Hb']. apply row_eqb_spec in Hb, Hb'. congruence.
Qed.
Definition ragged : Prop := exists r r', r < n /\ r' < n /\ length (blk (spins r)) <> length (blk (spins r')).
Lemma lengths : forallb (fun b => length (b_roots b) =? length (b_roots (hd (mkB [] [] false) sorted_raw))) sorted_raw = true <-> ~ ragged.
Proof.
  assert (L : forall b, In b sorted_raw -> length (b_roots b) = length (blk (b_str b))) by (intros b Hb; apply Permutation_length, sorted_good, Hb).
  assert (S : forall r, r < n -> exists b, In b sorted_raw /\ b_str b = spins r).
  { intros r Hr. assert (H : In (spins r) (map b_str raw)) by (rewrite raw_strs; apply np_unique_in, in_map, in_seq; lia). apply in_map_iff in H as (b & E & Hb). eexists. split; [apply in_map, Hb|exact E]. }
  rewrite forallb_forall. split.
  - intros H (r & r' & Hr & Hr' & N). destruct (S r Hr) as (b & Hb & E). destruct (S r' Hr') as (b' & Hb' & E'). pose proof (H b Hb) as X. pose proof (H b' Hb') as X'. apply Nat.eqb_eq in X, X'. rewrite (L b Hb), E in X. rewrite (L b' Hb'), E' in X'. congruence.
  - intros H b Hb. apply Nat.eqb_eq. destruct (Nat.eq_dec (length (b_roots b)) (length (b_roots (hd (mkB [] [] false) sorted_raw)))) as [E|E]; [exact E|]. exfalso. apply H.
    assert (H0 : In (hd (mkB [] [] false) sorted_raw) sorted_raw) by (destruct sorted_raw; [contradiction|left; reflexivity]). rewrite (L _ Hb), (L _ H0) in E.
    destruct (sorted_good b Hb) as (B1 & _). destruct (sorted_good _ H0) as (B2 & _). apply np_unique_in, in_map_iff in B1 as (r & E1 & Hr), B2 as (r' & E' & Hr'). rewrite <- E', <- E1 in E. apply in_seq in Hr, Hr'. exists r, r'. repeat split; [lia|lia|exact E].
Qed.
Definition one_block : Prop := forall r r', r < n -> r' < n -> spins r = spins r'.
Lemma split_cases : exists simple : bool, (simple = true <-> with_smult = false \/ one_block) /\
  split_idx = if simple then Ok (map (fun b => [b]) raw) else if negb (forallb (fun b => length (b_roots b) =? length (b_roots (hd (mkB [] [] false) sorted_raw))) sorted_raw) then Raise ValueError else Ok grouped.
Proof.
  exists (negb with_smult || (length (np_unique (map spins (seq 0 n))) <? 2)). split; [|reflexivity]. rewrite orb_true_iff, negb_true_iff, Nat.ltb_lt. split; (intros [H|H]; [left; exact H|right]).
  - intros r r' Hr Hr'. assert (X : In (spins r) (np_unique (map spins (seq 0 n))) /\ In (spins r') (np_unique (map spins (seq 0 n)))) by (split; apply np_unique_in, in_map, in_seq; lia). destruct X as [X X']. destruct (np_unique (map spins (seq 0 n))) as [|u [|v l]]; [contradiction| |cbn in H; lia]. destruct X as [<-|[]], X' as [<-|[]]. reflexivity.
  - pose proof (np_unique_nodup (map spins (seq 0 n))) as ND. pose proof (fun x => proj1 (np_unique_in (map spins (seq 0 n)) x)) as I. destruct (np_unique (map spins (seq 0 n))) as [|u [|v l]]; [cbn; lia|cbn; lia|]. exfalso. inversion ND as [|? ? N _]; subst. apply N. left.
    pose proof (I u (or_introl eq_refl)) as Iu. pose proof (I v (or_intror (or_introl eq_refl))) as Iv. apply in_map_iff in Iu as (r & <- & Hr), Iv as (r' & <- & Hr'). apply in_seq in Hr, Hr'. symmetry. apply H; lia.
Qed.

(** ** _get_spin_split_manifolds_idx *)
(** every rootspace is in one manifold, once; a row has all rootspaces with its m string; rows of one manifold match *)
Theorem C77_split : (forall r, r < n -> length (fprint r) = nf) -> forall ms, split_idx = Ok ms ->
  Permutation (concat (map roots_of ms)) (seq 0 n) /\ (forall m b, In m ms -> In b m -> all_with spins (fun r => r < n) b) /\ NoDup (map b_str (concat ms)) /\ Forall (fun m => m <> [] /\ matched fprint m) ms.
Proof.
  intros HL ms H. destruct split_cases as (s & _ & E). rewrite E in H. clear E.
  assert (R : forall l : list (list mblock), concat (map roots_of l) = roots_of (concat l)) by (intros l; unfold roots_of; induction l as [|m l IH]; [reflexivity|]; cbn [map concat]; rewrite map_app, concat_app, <- IH; reflexivity).
  destruct s; [|destruct (forallb _ sorted_raw) eqn:EF; [|discriminate]]; cbn [negb] in H; injection H as <-; rewrite R.
  - assert (C : concat (map (fun b => [b]) raw) = raw) by (induction raw as [|x l IH]; [reflexivity|]; cbn [map concat app]; now rewrite IH). rewrite C. split; [exact raw_roots|]. split; [|split].
    + intros m b Hm Hb. apply in_map_iff in Hm as (x & <- & Hx). destruct Hb as [<-|[]]. apply good_all, raw_good, Hx.
    + rewrite raw_strs. apply np_unique_nodup.
    + apply Forall_forall. intros m Hm. apply in_map_iff in Hm as (x & <- & Hx). split; [discriminate|]. intros b b' [<-|[]] [<-|[]]. reflexivity.
  - split; [rewrite <- sorted_roots; unfold roots_of; clear; pose proof grouped_perm as P; induction P; cbn [map concat]; [reflexivity|apply Permutation_app_head; assumption|rewrite !app_assoc; apply Permutation_app_tail, Permutation_app_comm|etransitivity; eassumption]|]. split; [|split].
    + intros m b Hm Hb. apply good_all, sorted_good. exact (in_grouped m b Hm Hb).
    + apply (Permutation_NoDup (l := map b_str sorted_raw)); [symmetry; apply Permutation_map, grouped_perm|]. assert (X : map b_str sorted_raw = map b_str raw) by (unfold sorted_raw; rewrite map_map; reflexivity). rewrite X, raw_strs. apply np_unique_nodup.
    + apply Forall_forall. intros m Hm. split.
      * intros ->. unfold grouped in Hm. apply in_map_iff in Hm as (u & Em & Hu). apply np_unique_in, in_map_iff in Hu as (b & Eb & Hb). apply (in_nil (a:=b)). rewrite <- Em. apply (Permutation_in _ (Permutation_sym (sort_by_perm _ _ _))), filter_In. split; [exact Hb|]. now apply row_eqb_spec.
      * intros b b' Hb Hb'. pose proof (same_key m b b' Hm Hb Hb') as K. pose proof (in_grouped m b Hm Hb) as I. pose proof (in_grouped m b' Hm Hb') as I'. rewrite forallb_forall in EF. pose proof (EF b I) as L. pose proof (EF b' I') as L'. apply Nat.eqb_eq in L, L'.
        assert (X : forall c, In c sorted_raw -> forall x, In x (map fprint (b_roots c)) -> length x = nf). { intros c Hc x Hx. apply in_map_iff in Hx as (r & <- & Hr). apply HL. apply (good_all c (sorted_good c Hc)). exact Hr. }
        apply (concat_inj nf); [rewrite !map_length; congruence|apply X, I|apply X, I'|exact K].
Qed.
(** m strings whose rootspaces have the same fingerprints are rows of one manifold *)
Theorem C77_paired : with_smult = true -> (forall r, r < n -> length (fprint r) = nf) -> forall ms, split_idx = Ok ms ->
  forall r r', r < n -> r' < n -> Permutation (map fprint (blk (spins r))) (map fprint (blk (spins r'))) ->
  exists m b b', In m ms /\ In b m /\ In b' m /\ In r (b_roots b) /\ In r' (b_roots b').
Proof.
  intros Hw HL ms H r r' Hr Hr' HP. destruct split_cases as (s & Hs & E). rewrite E in H. clear E.
  assert (S : forall r, r < n -> In (mkB (spins r) (blk (spins r)) (has1st && (nth 0 (blk (spins r)) 0 =? 0))) raw) by (intros x Hx; unfold raw; apply (in_map (fun m => mkB m (blk m) (has1st && (nth 0 (blk m) 0 =? 0)))); apply np_unique_in, in_map, in_seq; lia).
  destruct s; [|destruct (forallb _ sorted_raw) eqn:EF; [|discriminate]]; cbn [negb] in H; injection H as <-.
  - destruct (proj1 Hs eq_refl) as [H|H]; [congruence|]. set (b := mkB (spins r) (blk (spins r)) (has1st && (nth 0 (blk (spins r)) 0 =? 0))). exists [b], b, b. split; [apply (in_map (fun b => [b])), S, Hr|]. cbn [In b b_roots]. split; [left; reflexivity|]. split; [left; reflexivity|]. split; apply blk_in; [auto|]. split; [exact Hr'|apply H; assumption].
  - set (B := fun r => mkB (spins r) (sort_by nf fprint (blk (spins r))) (has1st && (nth 0 (blk (spins r)) 0 =? 0))).
    assert (I : forall r, r < n -> In (B r) sorted_raw) by (intros x Hx; apply (in_map (fun b => mkB (b_str b) (sort_by nf fprint (b_roots b)) (b_first b)) raw _ (S x Hx))).
    assert (K : key (B r) = key (B r')). { unfold key, B. cbn [b_roots]. f_equal. apply sort_by_canonical; [|exact HP]. intros x Hx. apply HL. apply blk_in in Hx. tauto. }
    exists (sort_by nf b_str (filter (fun b => row_eqb (key b) (key (B r))) sorted_raw)), (B r), (B r').
    assert (X : forall x, x < n -> key (B x) = key (B r) -> In (B x) (sort_by nf b_str (filter (fun b => row_eqb (key b) (key (B r))) sorted_raw))) by (intros x Hx Ex; apply (Permutation_in _ (Permutation_sym (sort_by_perm _ _ _))), filter_In; split; [apply I, Hx|now apply row_eqb_spec]).
    split; [unfold grouped; apply (in_map (fun u => sort_by nf b_str (filter (fun b => row_eqb (key b) u) sorted_raw))); apply np_unique_in, in_map, I, Hr|]. split; [apply X; auto|]. split; [apply X; auto|]. unfold B. cbn [b_roots]. split; apply (Permutation_in _ (Permutation_sym (sort_by_perm _ _ _))), blk_in; auto.
Qed.
(** rows are in order: by the last fragment first *)
Theorem C77_rows_sorted ms : split_idx = Ok ms -> Forall (StronglySorted (fun b b' => before nf (b_str b) (b_str b'))) ms.
Proof.
  intros H. destruct split_cases as (s & _ & E). rewrite E in H. destruct s; [|destruct (forallb _ sorted_raw); [|discriminate]]; cbn [negb] in H; injection H as <-; apply Forall_forall; intros m Hm; apply in_map_iff in Hm as (u & <- & _); [repeat constructor|apply sort_by_sorted].
Qed.
(** the manifold that is put first is the one with the first rootspace *)
Theorem C77_first ms : split_idx = Ok ms -> forall m, In m ms -> is_first m = true <-> has1st = true /\ In 0 (roots_of m).
Proof.
  intros H m Hm. assert (G : forall b, In b m -> good b).
  { destruct split_cases as (s & _ & E). rewrite E in H. destruct s; [|destruct (forallb _ sorted_raw); [|discriminate]]; cbn [negb] in H; injection H as <-; intros b Hb.
    - apply in_map_iff in Hm as (x & <- & Hx). destruct Hb as [<-|[]]. apply raw_good, Hx.
    - apply sorted_good. exact (in_grouped m b Hm Hb). }
  unfold is_first, roots_of. rewrite existsb_exists. split.
  - intros (b & Hb & F). apply (G b Hb) in F as [F0 F]. split; [exact F0|]. apply in_concat. exists (b_roots b). split; [apply in_map, Hb|exact F].
  - intros [F0 F]. apply in_concat in F as (l & Hl & F). apply in_map_iff in Hl as (b & <- & Hb). exists b. split; [exact Hb|]. apply (G b Hb). auto.
Qed.
(** it returns unless m strings have different numbers of rootspaces *)
Theorem C77_raises : (exists ms, split_idx = Ok ms) \/ split_idx = Raise ValueError /\ with_smult = true /\ ragged.
Proof.
  destruct split_cases as (s & Hs & E). rewrite E. destruct s; [left; eexists; reflexivity|]. destruct (forallb _ sorted_raw) eqn:F; [left; eexists; reflexivity|]. right. split; [reflexivity|]. split.
  - destruct with_smult; [reflexivity|]. assert (false = true) by (apply Hs; left; reflexivity). discriminate.
  - pose proof lengths as L. rewrite F in L.
    destruct (existsb (fun r => existsb (fun r' => negb (length (blk (spins r)) =? length (blk (spins r')))) (seq 0 n)) (seq 0 n)) eqn:X.
    + apply existsb_exists in X as (r & Hr & X). apply existsb_exists in X as (r' & Hr' & X). apply in_seq in Hr, Hr'. apply negb_true_iff, Nat.eqb_neq in X. exists r, r'. repeat split; [lia|lia|exact X].
    + exfalso. assert (false = true); [|discriminate]. apply L. intros (r & r' & Hr & Hr' & N). assert (Y : existsb (fun r => existsb (fun r' => negb (length (blk (spins r)) =? length (blk (spins r')))) (seq 0 n)) (seq 0 n) = true); [|congruence].
      apply existsb_exists. exists r. split; [apply in_seq; lia|]. apply existsb_exists. exists r'. split; [apply in_seq; lia|]. apply negb_true_iff, Nat.eqb_neq. exact N.
Qed.
End Idx.
Print Assumptions C77_split.
Print Assumptions C77_paired.
Print Assumptions C77_rows_sorted.
Print Assumptions C77_first.
Print Assumptions C77_raises.
