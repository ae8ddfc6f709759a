(** Properties of the unique interactions. *)
From Coq Require Import List ZArith Bool Arith Lia Permutation Sorted.
From Verif Require Import Base BaseFacts SCModel SCSpec SCPrint PropSC ExcModel ExcSpec ExcFacts ExcClass PropExc UexcModel UexcFacts.
Import ListNotations.
Local Open Scope Z_scope.

(** The words hashed for a row, and those for the same row with bra and ket exchanged *)
Definition sfrags (r : erow) : list Z := sort_z (map Z.of_nat (e_frags r)).
Definition roots (uroot : Z -> Z -> Z) (rt : nat) (r : erow) : list Z := map (uroot (Z.of_nat rt)) (sfrags r).
Definition words (uroot : Z -> Z -> Z) (r : erow) : list Z := sfrags r ++ roots uroot (e_bra r) r ++ roots uroot (e_ket r) r.
Definition words_T (uroot : Z -> Z -> Z) (r : erow) : list Z := sfrags r ++ roots uroot (e_ket r) r ++ roots uroot (e_bra r) r.
Definition collision_free (uroot : Z -> Z -> Z) (exc : list erow) : Prop := forall x y,
  In x (map (words uroot) exc ++ map (words_T uroot) exc) -> In y (map (words uroot) exc ++ map (words_T uroot) exc) -> fnv_1a x = fnv_1a y -> x = y.
(** An unordered pair, when the lower triangle stands for both *)
Definition up_to_swap (ltri : bool) (p : nat * nat) : nat * nat := if ltri then (Nat.max (fst p) (snd p), Nat.min (fst p) (snd p)) else p.
(** Same involved fragments in the same unique roots *)
Definition alike (uroot : Z -> Z -> Z) (frags : list nat) (p q : nat * nat) : Prop := forall f, In f frags ->
  uroot (Z.of_nat (fst p)) (Z.of_nat f) = uroot (Z.of_nat (fst q)) (Z.of_nat f) /\ uroot (Z.of_nat (snd p)) (Z.of_nat f) = uroot (Z.of_nat (snd q)) (Z.of_nat f).

Lemma app3_inv {X} (a b c a' b' c' : list X) : length a = length a' -> length b = length b' -> a ++ b ++ c = a' ++ b' ++ c' -> a = a' /\ b = b' /\ c = c'.
Proof.
  assert (G : forall (a a' c c' : list X), length a = length a' -> a ++ c = a' ++ c' -> a = a' /\ c = c').
  { induction a0 as [|x l IH]; intros [|y m] t t' L E; cbn in *; try lia; auto. injection E as -> E. destruct (IH m t t' ltac:(lia) E) as [-> ->]. auto. }
  intros L1 L2 E. apply G in E as [-> E]; [|exact L1]. apply G in E as [-> ->]; auto.
Qed.
Lemma sfrags_len r : length (sfrags r) = length (e_frags r).
Proof. unfold sfrags. rewrite <- bubblesort_sort_z. rewrite (Permutation_length (proj1 (bubblesort_sorts _))). apply map_length. Qed.
Lemma sfrags_in r x : In x (sfrags r) <-> exists f, x = Z.of_nat f /\ In f (e_frags r).
Proof.
  unfold sfrags. rewrite <- bubblesort_sort_z. pose proof (proj1 (bubblesort_sorts (map Z.of_nat (e_frags r)))) as P. split.
  - intros H. apply (Permutation_in _ P) in H. apply in_map_iff in H as (f & <- & Hf). eauto.
  - intros (f & -> & Hf). apply (Permutation_in _ (Permutation_sym P)). now apply in_map.
Qed.
Lemma fpr_fst uroot r : fst (fpr uroot r) = fnv_1a (words uroot r).
Proof. unfold fpr, fp_row. rewrite bubblesort_sort_z. reflexivity. Qed.
Lemma fpr_snd uroot r : snd (fpr uroot r) = fnv_1a (words uroot r) \/ snd (fpr uroot r) = fnv_1a (words_T uroot r).
Proof. unfold fpr, fp_row. cbn [snd]. rewrite bubblesort_sort_z. destruct (fp_trans _ _ _ _); [right | left]; reflexivity. Qed.

Section S.
  Variables (uroot : Z -> Z -> Z) (ltri : bool) (exc : list erow) (n : nat).
  Hypothesis Hn : forall r, In r exc -> length (e_frags r) = n.
  Hypothesis Hc : collision_free uroot exc.
  Let LT r := if ltri then snd (fpr uroot r) else fst (fpr uroot r).
  Lemma W1 r : In r exc -> In (words uroot r) (map (words uroot) exc ++ map (words_T uroot) exc).
  Proof. intros H. apply in_or_app. left. now apply in_map. Qed.
  Lemma W2 r : In r exc -> In (words_T uroot r) (map (words uroot) exc ++ map (words_T uroot) exc).
  Proof. intros H. apply in_or_app. right. now apply in_map. Qed.
  Lemma split_words r u b k b' k' : In r exc -> In u exc -> sfrags r ++ roots uroot b r ++ roots uroot k r = sfrags u ++ roots uroot b' u ++ roots uroot k' u ->
    sfrags r = sfrags u /\ roots uroot b r = roots uroot b' u /\ roots uroot k r = roots uroot k' u.
  Proof.
    intros Hr Hu E. apply app3_inv in E; [exact E | |]; unfold roots; rewrite ?map_length, !sfrags_len, (Hn r Hr), (Hn u Hu); reflexivity.
  Qed.
  Lemma same_class r u : In r exc -> In u exc -> LT r = LT u -> sfrags r = sfrags u /\
    (if fst (fpr uroot r) =? fst (fpr uroot u) then roots uroot (e_bra r) r = roots uroot (e_bra u) u /\ roots uroot (e_ket r) r = roots uroot (e_ket u) u
     else ltri = true /\ roots uroot (e_ket r) r = roots uroot (e_bra u) u /\ roots uroot (e_bra r) r = roots uroot (e_ket u) u).
  Proof.
    intros Hr Hu E. destruct (Z.eqb_spec (fst (fpr uroot r)) (fst (fpr uroot u))) as [F|F].
    - rewrite !fpr_fst in F. apply Hc in F; [|now apply W1|now apply W1]. apply split_words in F; assumption.
    - unfold LT in E. destruct ltri; [|contradiction].
      destruct (fpr_snd uroot r) as [E1|E1], (fpr_snd uroot u) as [E2|E2]; rewrite E1, E2 in E; (apply Hc in E; [|now (apply W1 || apply W2)|now (apply W1 || apply W2)]).
      + rewrite !fpr_fst, E in F. contradiction.
      + apply split_words in E as (E3 & E4 & E5); auto.
      + apply split_words in E as (E3 & E4 & E5); auto.
      + apply split_words in E as (E3 & E4 & E5); auto. exfalso. apply F. rewrite !fpr_fst. unfold words. now rewrite E3, E4, E5.
  Qed.
  Let fp := fst (fprints uroot ltri exc).
  Let lt := snd (fprints uroot ltri exc).
  Let U v := nth (first_pos v lt) exc dflt.
  Lemma U_in v : In v (unique_v lt) -> In (U v) exc /\ LT (U v) = v /\ (first_pos v lt < length exc)%nat.
  Proof.
    intros Hv. apply (proj1 (unique_v_in _ _)) in Hv. destruct (first_pos_spec v lt Hv) as [L E]. pose proof (proj2 (fp_len uroot ltri exc)) as FL. fold lt in FL. rewrite FL in L.
    split; [apply nth_In; exact L|]. split; [|exact L]. pose proof (lt_nth uroot ltri exc (first_pos v lt) L) as E2. unfold LT, U. etransitivity; [symmetry; exact E2 | exact E].
  Qed.
  Lemma group_row v i : In i (group lt v) -> (i < length exc)%nat /\ In (nth i exc dflt) exc /\ LT (nth i exc dflt) = v.
  Proof.
    intros Hi. apply in_group in Hi as [L E]. pose proof (proj2 (fp_len uroot ltri exc)) as FL. fold lt in FL. rewrite FL in L. split; [exact L|]. split; [now apply nth_In|].
    pose proof (lt_nth uroot ltri exc i L) as E2. unfold LT. etransitivity; [symmetry; exact E2 | exact E].
  Qed.
  Lemma img_spec v i : In v (unique_v lt) -> In i (group lt v) -> let r := nth i exc dflt in
    sfrags r = sfrags (U v) /\ up_to_swap ltri (img uroot ltri exc v i) = up_to_swap ltri (e_bra r, e_ket r)
    /\ roots uroot (fst (img uroot ltri exc v i)) r = roots uroot (e_bra (U v)) (U v) /\ roots uroot (snd (img uroot ltri exc v i)) r = roots uroot (e_ket (U v)) (U v).
  Proof.
    intros Hv Hi r. destruct (U_in v Hv) as (U1 & U2 & U3). destruct (group_row v i Hi) as (G1 & G2 & G3).
    destruct (same_class r (U v) G2 U1) as [S1 S2]; [exact (eq_trans G3 (eq_sym U2))|]. split; [exact S1|]. unfold img. fold lt. rewrite (fp_nth uroot ltri exc i G1), (fp_nth uroot ltri exc _ U3).
    fold r. fold (U v). destruct (fst (fpr uroot r) =? fst (fpr uroot (U v))); cbn [negb fst snd].
    - destruct S2 as [S2 S3]. repeat split; assumption.
    - destruct S2 as (L & S2 & S3). repeat split; try assumption. unfold up_to_swap. rewrite L. cbn. f_equal; lia.
  Qed.
  Lemma alike_roots r u p q : sfrags r = sfrags u -> roots uroot (fst p) r = roots uroot (fst q) u -> roots uroot (snd p) r = roots uroot (snd q) u -> alike uroot (e_frags u) p q.
  Proof.
    intros S E1 E2 f Hf. assert (I : In (Z.of_nat f) (sfrags u)) by (apply sfrags_in; eauto). unfold roots in E1, E2. rewrite S in E1, E2.
    assert (G : forall (g h : Z -> Z) l, map g l = map h l -> forall x, In x l -> g x = h x).
    { intros g h l E x. revert E. induction l as [|y l IH]; [intros _ []|]. cbn. intros E. injection E as Ey E. intros [->|Hx]; auto. }
    split; [exact (G _ _ _ E1 _ I) | exact (G _ _ _ E2 _ I)].
  Qed.
End S.

(** All interactions are images of a unique one, each once; an image and the unique interaction agree on all fragments
    involved, so that they share the operator part of the matrix element. *)
Theorem C55_images : forall uroot ltri exc n, (forall r, In r exc -> length (e_frags r) = n) -> collision_free uroot exc ->
  let uexc := fst (find_unique_exc uroot ltri exc) in let images := snd (find_unique_exc uroot ltri exc) in
  incl uexc exc /\ map fst images = map key_of uexc /\
  Permutation (flat_map (fun e => map (fun p => (sort_z (map Z.of_nat (snd (fst e))), up_to_swap ltri p)) (snd e)) images)
    (map (fun r => (sort_z (map Z.of_nat (e_frags r)), up_to_swap ltri (e_bra r, e_ket r))) exc) /\
  (forall b k fr l p, In ((b, k, fr), l) images -> In p l -> alike uroot fr p (b, k)).
Proof.
  intros uroot ltri exc n Hn Hc uexc images. subst uexc images. rewrite find_eq. cbn [fst snd]. set (lt := snd (fprints uroot ltri exc)). split; [|split; [|split]].
  - intros r Hr. apply in_map_iff in Hr as (v & <- & Hv). exact (proj1 (U_in uroot ltri exc v Hv)).
  - now rewrite !map_map.
  - rewrite flat_map_concat_map, map_map, <- flat_map_concat_map. cbn [fst snd].
    pose proof (groups_perm lt) as P. replace (length lt) with (length exc) in P by (symmetry; exact (proj2 (fp_len uroot ltri exc))).
    apply (Permutation_map (fun i => let r := nth i exc dflt in (sort_z (map Z.of_nat (e_frags r)), up_to_swap ltri (e_bra r, e_ket r)))) in P.
    assert (E : map (fun i => let r := nth i exc dflt in (sort_z (map Z.of_nat (e_frags r)), up_to_swap ltri (e_bra r, e_ket r))) (seq 0 (length exc))
      = map (fun r => (sort_z (map Z.of_nat (e_frags r)), up_to_swap ltri (e_bra r, e_ket r))) exc).
    { transitivity (map (fun r => (sort_z (map Z.of_nat (e_frags r)), up_to_swap ltri (e_bra r, e_ket r))) (map (fun i => nth i exc dflt) (seq 0 (length exc)))); [now rewrite map_map | now rewrite nth_map_seq]. }
    rewrite E in P. rewrite <- P. clear P E. rewrite concat_map, map_map, <- flat_map_concat_map.
    assert (E : forall us, incl us (unique_v lt) -> flat_map (fun v => map (fun p => (sort_z (map Z.of_nat (e_frags (nth (first_pos v lt) exc dflt))), up_to_swap ltri p)) (map (img uroot ltri exc v) (group lt v))) us
      = flat_map (fun v => map (fun i => let r := nth i exc dflt in (sort_z (map Z.of_nat (e_frags r)), up_to_swap ltri (e_bra r, e_ket r))) (group lt v)) us).
    { induction us as [|v us IH]; intros I; [reflexivity|]. cbn [flat_map]. rewrite IH by (intros x Hx; apply I; now right). f_equal. rewrite map_map. apply map_ext_in. intros i Hi.
      destruct (img_spec uroot ltri exc n Hn Hc v i (I v (or_introl eq_refl)) Hi) as (S1 & S2 & _). unfold sfrags in S1. cbn zeta in S1, S2. fold lt in S1. rewrite <- S1, S2. reflexivity. }
    rewrite E by apply incl_refl. reflexivity.
  - intros b k fr l p He Hp. apply in_map_iff in He as (v & E & Hv). injection E as <- <- <- <-. apply in_map_iff in Hp as (i & <- & Hi).
    destruct (img_spec uroot ltri exc n Hn Hc v i Hv Hi) as (S1 & _ & S3 & S4). exact (alike_roots uroot (nth i exc dflt) (nth (first_pos v lt) exc dflt) _ (_, _) S1 S3 S4).
Qed.
Print Assumptions C55_images.

(** No two of the unique interactions could have shared an entry. *)
Theorem C55_unique : forall uroot ltri exc,
  ForallOrdPairs (fun r1 r2 => ~ (Permutation (e_frags r1) (e_frags r2) /\
    (alike uroot (e_frags r2) (pair_of r1) (pair_of r2) \/ (ltri = true /\ alike uroot (e_frags r2) (e_ket r1, e_bra r1) (pair_of r2)))))
    (fst (find_unique_exc uroot ltri exc)).
Proof.
  intros uroot ltri exc. rewrite find_eq. cbn [fst]. set (lt := snd (fprints uroot ltri exc)).
  assert (G : forall us, incl us (unique_v lt) -> StronglySorted Z.lt us -> ForallOrdPairs (fun r1 r2 => ~ (Permutation (e_frags r1) (e_frags r2) /\
    (alike uroot (e_frags r2) (pair_of r1) (pair_of r2) \/ (ltri = true /\ alike uroot (e_frags r2) (e_ket r1, e_bra r1) (pair_of r2))))) (map (fun v => nth (first_pos v lt) exc dflt) us));
    [|apply G; [apply incl_refl | apply unique_v_sorted]].
  intros us I S. induction S as [|v us S1 IH S2]; [constructor|]. cbn [map]. constructor; [|apply IH; intros x Hx; apply I; now right].
  apply Forall_forall. intros r2 Hr. apply in_map_iff in Hr as (w & <- & Hw). rewrite Forall_forall in S2. specialize (S2 _ Hw).
  destruct (U_in uroot ltri exc v (I v (or_introl eq_refl))) as (_ & E1 & _). destruct (U_in uroot ltri exc w (I w (or_intror Hw))) as (_ & E2 & _). fold lt in E1, E2.
  revert E1 E2. generalize (nth (first_pos v lt) exc dflt) (nth (first_pos w lt) exc dflt). intros r1 r2 E1 E2 [P A].
  assert (Pz : Permutation (map Z.of_nat (e_frags r1)) (map Z.of_nat (e_frags r2))) by now apply Permutation_map.
  assert (F1 : forall b k, alike uroot (e_frags r2) (b, k) (pair_of r2) -> fp_row uroot (Z.of_nat b) (Z.of_nat k) (map Z.of_nat (e_frags r1)) = fpr uroot r2).
  { intros b k Al. rewrite (fp_frag_order _ _ _ _ _ Pz). unfold fpr. apply fp_spectators. intros f Hf. apply in_map_iff in Hf as (g & <- & Hg). exact (Al g Hg). }
  destruct A as [A|[L A]].
  - apply F1 in A. unfold fpr in E1 at 1 2. cbn [pair_of] in A. rewrite A in E1. destruct ltri; lia.
  - apply F1 in A. rewrite L in E1, E2. unfold fpr in E1. rewrite fp_swap, A in E1. lia.
Qed.
Print Assumptions C55_unique.

(** * The dictionary of images *)
Lemma first_pos_inj lt : NoDup (map (fun v => first_pos v lt) (unique_v lt)).
Proof.
  assert (G : forall us, incl us (unique_v lt) -> NoDup us -> NoDup (map (fun v => first_pos v lt) us)).
  { intros us I N. induction N as [|v us H1 H2 IH]; [constructor|]. cbn. constructor; [|apply IH; intros x Hx; apply I; now right].
    intros C. apply in_map_iff in C as (w & E & Hw). destruct (first_pos_spec v lt) as [_ E1]; [apply unique_v_in, I; now left|]. destruct (first_pos_spec w lt) as [_ E2]; [apply unique_v_in, I; now right|].
    rewrite E in E2. congruence. }
  apply G; [apply incl_refl|]. clear G. pose proof (unique_v_sorted lt) as S. induction S as [|x l S1 IH S2]; constructor; [|exact IH]. intros C. rewrite Forall_forall in S2. specialize (S2 _ C). lia.
Qed.
Lemma uexc_keys uroot ltri exc : NoDup (map key_of exc) -> NoDup (map key_of (fst (find_unique_exc uroot ltri exc))).
Proof.
  intros N. rewrite find_eq. cbn [fst]. rewrite map_map. set (lt := snd (fprints uroot ltri exc)).
  assert (G : forall ix, NoDup ix -> (forall i, In i ix -> (i < length exc)%nat) -> NoDup (map (fun i => key_of (nth i exc dflt)) ix)).
  { induction 1 as [|i ix H1 H2 IH]; intros B; [constructor|]. cbn. constructor; [|apply IH; intros; apply B; now right]. intros C. apply in_map_iff in C as (j & E & Hj).
    apply H1. assert (Ei : i = j); [|now subst]. symmetry. rewrite NoDup_nth with (d := key_of dflt) in N. apply N; rewrite ?map_length; [apply B; now right | apply B; now left|]. now rewrite !map_nth. }
  rewrite <- (map_map (fun v => first_pos v lt) (fun i => key_of (nth i exc dflt))). apply G; [apply first_pos_inj|].
  intros i Hi. apply in_map_iff in Hi as (v & <- & Hv). exact (proj2 (proj2 (U_in uroot ltri exc v Hv))).
Qed.
Lemma uexc_incl uroot ltri exc : incl (fst (find_unique_exc uroot ltri exc)) exc.
Proof. rewrite find_eq. cbn [fst]. intros r Hr. apply in_map_iff in Hr as (v & <- & Hv). exact (proj1 (U_in uroot ltri exc v Hv)). Qed.
Lemma uexc_fst uroot ltri exc : map fst (snd (find_unique_exc uroot ltri exc)) = map key_of (fst (find_unique_exc uroot ltri exc)).
Proof. rewrite find_eq. cbn [fst snd]. now rewrite !map_map. Qed.
Lemma dict_keys uroot ltri keep tabs : NoDup (map key_of (concat tabs)) -> NoDup (map fst (snd (mask_exc_tables uroot ltri keep tabs))).
Proof.
  intros N. unfold mask_exc_tables. cbn [snd]. rewrite flat_map_concat_map, map_map.
  induction tabs as [|t tabs IH]; [constructor|]. cbn [map concat]. rewrite map_app. rewrite concat_cons, map_app in N. apply NoDup_app_inv in N as (N1 & N2 & N3).
  assert (Nf : NoDup (map key_of (filter keep t))).
  { clear -N1. induction t as [|r t IH]; [constructor|]. cbn in *. inversion N1; subst. destruct (keep r); cbn; [constructor|]; auto. intros C. apply H1. apply in_map_iff in C as (x & <- & Hx). apply in_map. now apply filter_In in Hx. }
  assert (Sub : forall t k, In k (map fst (snd (find_unique_exc uroot ltri (filter keep t)))) -> In k (map key_of t)).
  { intros t0 k Hk. rewrite uexc_fst in Hk. apply in_map_iff in Hk as (r & <- & Hr). apply in_map. apply uexc_incl in Hr. now apply filter_In in Hr. }
  apply NoDup_app_intro; [rewrite uexc_fst; now apply uexc_keys | now apply IH|].
  intros k Hk Hk'. apply Sub in Hk. apply (N3 k Hk). rewrite concat_map in Hk'. apply in_concat in Hk' as (l & Hl & Hk'). apply in_map_iff in Hl as (l0 & <- & Hl). apply in_map_iff in Hl as (t' & <- & Ht').
  apply Sub in Hk'. rewrite concat_map. apply in_concat. exists (map key_of t'). split; [now apply in_map | exact Hk'].
Qed.
Lemma get_key_in d k v : NoDup (map fst d) -> In (k, v) d -> get_key k d = Some v.
Proof.
  intros N I. unfold get_key. assert (N' : NoDup (map fst (rev d))) by (rewrite map_rev; now apply NoDup_rev). apply in_rev in I. revert N' I. generalize (rev d). clear N d. intros d N I.
  induction d as [|[[[b t] f] w] d IH]; [destruct I|]. cbn [find]. destruct k as [[b' t'] f'].
  destruct ((b =? b')%nat && (t =? t')%nat && (if list_eq_dec Nat.eq_dec f f' then true else false)) eqn:E.
  - apply andb_true_iff in E as [E1 E2]. apply andb_true_iff in E1 as [E1 E3]. apply Nat.eqb_eq in E1, E3. destruct (list_eq_dec Nat.eq_dec f f'); [|discriminate]. subst.
    destruct I as [I|I]; [now injection I as -> |]. exfalso. cbn in N. inversion N; subst. apply H1. now apply (in_map fst) in I.
  - destruct I as [I|I]; [|apply IH; [now inversion N | exact I]]. injection I as -> -> -> ->. rewrite !Nat.eqb_refl in E. destruct (list_eq_dec Nat.eq_dec f' f'); [discriminate | contradiction].
Qed.

Definition interaction_tables (T : tables) : list (list erow) := [t_1d T; t_2d T; t_1c T; t_1c1d T; t_1s T; t_1s1c T; t_2c T].
Lemma nodup_key_pair t : NoDup (map pair_of t) -> NoDup (map key_of t).
Proof.
  induction t as [|r t IH]; [constructor|]. cbn. intros N. inversion N; subst. constructor; [|now apply IH]. intros C. apply H1. apply in_map_iff in C as (x & E & Hx).
  apply in_map_iff. exists x. split; [|exact Hx]. unfold key_of, pair_of in *. congruence.
Qed.
Lemma nodup_key_spin t : NoDup t -> (forall r r', In r t -> In r' t -> key_of r = key_of r' -> e_spin r = e_spin r') -> NoDup (map key_of t).
Proof.
  induction 1 as [|r t H1 H2 IH]; intros Hs; [constructor|]. cbn. constructor; [|apply IH; intros; apply Hs; auto; now right]. intros C. apply in_map_iff in C as (x & E & Hx).
  apply H1. pose proof (Hs x r (or_intror Hx) (or_introl eq_refl) E) as Es. destruct x, r. unfold key_of in E. cbn in *. injection E as -> -> ->. now subst.
Qed.
Lemma pair_tag (bases : list (list (nat * nat))) : NoDup (concat bases) -> forall i j p, In p (nth i bases []) -> In p (nth j bases []) -> i = j.
Proof.
  induction bases as [|b bases IH]; intros N i j p Hi Hj; [destruct i; destruct Hi|]. cbn in N. apply NoDup_app_inv in N as (N1 & N2 & N3).
  assert (G : forall m, In p (nth m bases []) -> In p (concat bases)). { intros m Hm. apply in_concat. exists (nth m bases []). split; [|exact Hm]. apply nth_In. destruct (Nat.lt_ge_cases m (length bases)); [assumption|]. rewrite nth_overflow in Hm by lia. destruct Hm. }
  destruct i as [|i], j as [|j]; cbn in Hi, Hj; auto.
  - exfalso. exact (N3 p Hi (G j Hj)).
  - exfalso. exact (N3 p Hj (G i Hi)).
  - f_equal. now apply (IH N2 i j p).
Qed.
Lemma tagged_keys (bases : list (list (nat * nat))) (Hb : NoDup (concat bases)) : forall (tt : list ((nat * nat) * list erow)), NoDup (map fst tt) ->
  (forall tag t, In (tag, t) tt -> NoDup (map key_of t) /\ forall r, In r t -> length (e_frags r) = fst tag /\ In (pair_of r) (nth (snd tag) bases [])) ->
  NoDup (map key_of (concat (map snd tt))).
Proof.
  induction tt as [|[tag t] tt IH]; intros N H; [constructor|]. cbn [map snd concat]. rewrite map_app. cbn in N. inversion N as [|? ? N1 N2]; subst. destruct (H tag t (or_introl eq_refl)) as [K F].
  apply NoDup_app_intro; [exact K | apply IH; [exact N2 | intros; apply H; now right]|]. intros k Hk Hk'. apply in_map_iff in Hk as (r & <- & Hr). apply in_map_iff in Hk' as (r' & E & Hr').
  apply in_concat in Hr' as (t' & Ht' & Hr'). apply in_map_iff in Ht' as ([tag' t''] & <- & Ht'). cbn in Hr'. destruct (H tag' t'' (or_intror Ht')) as [_ F'].
  destruct (F r Hr) as [L1 P1]. destruct (F' r' Hr') as [L2 P2]. unfold key_of in E. injection E as E1 E2 E3. unfold pair_of in *. rewrite E1, E2 in P2. rewrite E3 in L2.
  apply N1. apply in_map_iff. exists (tag', t''). split; [|exact Ht']. cbn. destruct tag, tag'; cbn in *. f_equal; [lia|]. exact (pair_tag bases Hb _ _ _ P2 P1).
Qed.
Lemma table_keys nfrags nelec scai : admissible nfrags nelec scai -> NoDup scai ->
  NoDup (map key_of (concat (interaction_tables (make_exc_tables nfrags (hopping_index nelec) scai)))).
Proof.
  intros A N. set (T := make_exc_tables nfrags (hopping_index nelec) scai). destruct (C54_spectators _ _ _ A N) as ((N1 & N2 & N3) & S1 & S2 & S3). fold T in N1, N2, N3, S1, S2, S3.
  destruct (C54_rows _ _ _ A) as (R0 & R1 & R2 & R3 & R4). fold T in R0, R1, R2, R3, R4.
  pose proof (C54_each_once _ _ _ A) as P. fold T in P. apply (Permutation_NoDup P) in N. rewrite !map_app in N.
  set (bases := [map pair_of (t_null T); map pair_of (t_1c T); map pair_of (t_1s T); map pair_of (t_1s1c T); map pair_of (t_2c T)]).
  assert (Hb : NoDup (concat bases)) by (unfold bases; cbn [concat]; now rewrite app_nil_r).
  apply NoDup_app_inv in N as (M0 & N & _). apply NoDup_app_inv in N as (M1 & N & _). apply NoDup_app_inv in N as (M2 & N & _). apply NoDup_app_inv in N as (M3 & M4 & _).
  assert (Sn : forall r, In r (t_null T) -> e_spin r = None). { intros r Hr. change (t_null T) with (select (hopping_index nelec) (fun h => nop h =? 0) (fun _ => []) no_spin scai) in Hr. unfold select in Hr. apply in_map_iff in Hr as (p & <- & _). reflexivity. }
  change (interaction_tables T) with (map snd [((1, 0)%nat, t_1d T); ((2, 0)%nat, t_2d T); ((2, 1)%nat, t_1c T); ((3, 1)%nat, t_1c1d T); ((2, 2)%nat, t_1s T); ((3, 3)%nat, t_1s1c T); ((4, 4)%nat, t_2c T)]).
  apply (tagged_keys bases Hb).
  - cbn. repeat (constructor; [cbn; intuition congruence|]). constructor.
  - intros tag t Ht. cbn in Ht. destruct Ht as [E|[E|[E|[E|[E|[E|[E|[]]]]]]]]; injection E as <- <-; cbn [fst snd nth bases].
    + split.
      * apply nodup_key_spin; [exact N1|]. intros [b k f s] [b' k' f' s'] Hr Hr' _. apply S1 in Hr as (x & _ & _ & Hr). apply S1 in Hr' as (x' & _ & _ & Hr'). apply Sn in Hr, Hr'. cbn in *. congruence.
      * intros [b k f s] Hr. apply S1 in Hr as (x & -> & _ & Hr). split; [reflexivity|]. exact (in_map pair_of _ _ Hr).
    + split.
      * apply nodup_key_spin; [exact N2|]. intros [b k f s] [b' k' f' s'] Hr Hr' _. apply S2 in Hr as (x & y & _ & _ & Hr). apply S2 in Hr' as (x' & y' & _ & _ & Hr'). apply Sn in Hr, Hr'. cbn in *. congruence.
      * intros [b k f s] Hr. apply S2 in Hr as (x & y & -> & _ & Hr). split; [reflexivity|]. exact (in_map pair_of _ _ Hr).
    + split; [now apply nodup_key_pair|]. intros r Hr. split; [destruct (R1 r Hr) as (i & j & s & -> & _); reflexivity | now apply in_map].
    + split.
      * apply nodup_key_spin; [exact N3|]. intros [b k f s] [b' k' f' s'] Hr Hr' E. unfold key_of in E. cbn in E. injection E as -> -> ->.
        apply S3 in Hr as (i & j & x & -> & _ & _ & _ & Hr). apply S3 in Hr' as (i' & j' & x' & E & _ & _ & _ & Hr'). injection E as <- <- <-. cbn.
        apply nodup_key_pair in M1. assert (E : mkRow b' k' [i; j] s = mkRow b' k' [i; j] s'); [|congruence].
        destruct (In_nth _ _ dflt Hr) as (m & Lm & Em). destruct (In_nth _ _ dflt Hr') as (m' & Lm' & Em'). rewrite NoDup_nth with (d := key_of dflt) in M1.
        assert (Ex : m = m'). { apply M1; rewrite ?map_length; auto. rewrite !map_nth, Em, Em'. reflexivity. } congruence.
      * intros [b k f s] Hr. apply S3 in Hr as (i & j & x & -> & _ & _ & _ & Hr). split; [reflexivity|]. exact (in_map pair_of _ _ Hr).
    + split; [now apply nodup_key_pair|]. intros r Hr. split; [destruct (R2 r Hr) as (i & j & -> & _); reflexivity | now apply in_map].
    + split; [now apply nodup_key_pair|]. intros r Hr. split; [destruct (R3 r Hr) as (i & j & k & s & -> & _); reflexivity | now apply in_map].
    + split; [now apply nodup_key_pair|]. intros r Hr. split; [destruct (R4 r Hr) as (i & j & k & l & s & -> & _); reflexivity | now apply in_map].
Qed.

(** The one dictionary shared by all kinds of interaction: looking a unique interaction up gives its own images; no kind of
    interaction replaces an entry of another. *)
Theorem C55_lookup : forall nfrags nelec scai uroot ltri keep, admissible nfrags nelec scai -> NoDup scai ->
  let tabs := interaction_tables (make_exc_tables nfrags (hopping_index nelec) scai) in
  let dict := snd (mask_exc_tables uroot ltri keep tabs) in
  NoDup (map fst dict) /\
  forall t, In t tabs -> let found := find_unique_exc uroot ltri (filter keep t) in
    forall i, (i < length (fst found))%nat -> exists images,
      nth_error (snd found) i = Some (key_of (nth i (fst found) dflt), images) /\ get_key (key_of (nth i (fst found) dflt)) dict = Some images.
Proof.
  intros nfrags nelec scai uroot ltri keep A N tabs dict. pose proof (dict_keys uroot ltri keep tabs (table_keys _ _ _ A N)) as D. split; [exact D|].
  intros t Ht found i Hi. pose proof (uexc_fst uroot ltri (filter keep t)) as E. fold found in E.
  assert (L : (i < length (snd found))%nat) by (apply (f_equal (@length _)) in E; rewrite !map_length in E; lia).
  destruct (nth_error (snd found) i) as [[k im]|] eqn:Ei; [|apply nth_error_None in Ei; lia]. exists im.
  assert (Ek : k = key_of (nth i (fst found) dflt)).
  { assert (E1 : nth i (map fst (snd found)) (key_of dflt) = k) by (apply nth_error_nth; rewrite nth_error_map, Ei; reflexivity). rewrite E, map_nth in E1. now symmetry. }
  subst k. split; [reflexivity|]. apply get_key_in; [exact D|]. unfold dict, mask_exc_tables. cbn [snd]. apply in_flat_map. exists found. split; [unfold found; now apply (in_map (fun t => find_unique_exc uroot ltri (filter keep t)))|].
  exact (nth_error_In _ _ Ei).
Qed.
Print Assumptions C55_lookup.

Lemma times_out f s l : (forall x, In x l -> fst x <> f) -> times (f, s) l = 0.
Proof. induction l as [|x l IH]; intros H; [reflexivity|]. cbn. destruct (Nat.eqb_spec f (fst x)); [exfalso; apply (H x); [now left | congruence]|]. apply IH. intros y Hy. apply H. now right. Qed.
Lemma connects_out n nelec b k ops f s : connects n nelec b k ops -> (f < n)%nat -> (s < 2)%nat -> (forall x, In x (fst ops ++ snd ops) -> fst x <> f) -> elec nelec b f s = elec nelec k f s.
Proof. intros C Hf Hs O. rewrite (C f s Hf Hs). unfold moves. rewrite !times_out; [lia | |]; intros x Hx; apply O, in_or_app; auto. Qed.
Lemma table_confined nfrags nelec scai t r f s : admissible nfrags nelec scai -> NoDup scai -> In t (interaction_tables (make_exc_tables nfrags (hopping_index nelec) scai)) ->
  In r t -> (f < nfrags)%nat -> (s < 2)%nat -> ~ In f (e_frags r) -> elec nelec (e_bra r) f s = elec nelec (e_ket r) f s.
Proof.
  intros A N Ht Hr Hf Hs O. destruct (C54_spectators _ _ _ A N) as (_ & S1 & S2 & S3). destruct (C54_rows _ _ _ A) as (R0 & R1 & R2 & R3 & R4).
  cbn in Ht. destruct Ht as [<-|[<-|[<-|[<-|[<-|[<-|[<-|[]]]]]]]]; destruct r as [b k fr sp']; cbn [e_frags e_bra e_ket] in *.
  - apply S1 in Hr as (x & _ & _ & Hr). apply R0 in Hr as (_ & Hr). apply (connects_out _ _ _ _ _ _ _ Hr Hf Hs). intros x0 [].
  - apply S2 in Hr as (x & y & _ & _ & Hr). apply R0 in Hr as (_ & Hr). apply (connects_out _ _ _ _ _ _ _ Hr Hf Hs). intros x0 [].
  - apply R1 in Hr as (i & j & s' & E & _ & _ & _ & _ & _ & Hr). cbn in E. subst fr. apply (connects_out _ _ _ _ _ _ _ Hr Hf Hs). cbn in *. intros x Hx C. apply O. repeat destruct Hx as [<-|Hx]; cbn in C; auto; destruct Hx.
  - apply S3 in Hr as (i & j & x & -> & _ & _ & _ & Hr). apply R1 in Hr as (i' & j' & s' & E & _ & _ & _ & _ & _ & Hr). cbn in E. injection E as <- <-. apply (connects_out _ _ _ _ _ _ _ Hr Hf Hs). cbn in *. intros y Hx C. apply O. repeat destruct Hx as [<-|Hx]; cbn in C; auto; destruct Hx.
  - apply R2 in Hr as (i & j & E & _ & _ & _ & Hr). cbn in E. subst fr. apply (connects_out _ _ _ _ _ _ _ Hr Hf Hs). cbn in *. intros x Hx C. apply O. repeat destruct Hx as [<-|Hx]; cbn in C; auto; destruct Hx.
  - apply R3 in Hr as (i & j & l & s' & E & _ & _ & _ & _ & _ & _ & Hr). cbn in E. subst fr. apply (connects_out _ _ _ _ _ _ _ Hr Hf Hs). cbn in *. intros x Hx C. apply O. repeat destruct Hx as [<-|Hx]; cbn in C; auto; destruct Hx.
  - apply R4 in Hr as (i & j & l & m & s' & E & _ & _ & _ & _ & _ & _ & _ & _ & _ & _ & Hr). cbn in E. subst fr. apply (connects_out _ _ _ _ _ _ _ Hr Hf Hs). cbn in *. intros x Hx C. apply O. repeat destruct Hx as [<-|Hx]; cbn in C; auto; destruct Hx.
Qed.
Lemma table_len nfrags nelec scai t : admissible nfrags nelec scai -> NoDup scai -> In t (interaction_tables (make_exc_tables nfrags (hopping_index nelec) scai)) ->
  exists n, forall r, In r t -> length (e_frags r) = n.
Proof.
  intros A N Ht. destruct (C54_spectators _ _ _ A N) as (_ & S1 & S2 & S3). destruct (C54_rows _ _ _ A) as (R0 & R1 & R2 & R3 & R4).
  cbn in Ht. destruct Ht as [<-|[<-|[<-|[<-|[<-|[<-|[<-|[]]]]]]]];
  [exists 1%nat | exists 2%nat | exists 2%nat | exists 3%nat | exists 2%nat | exists 3%nat | exists 4%nat]; intros [b k fr sp'] Hr; cbn [e_frags].
  - apply S1 in Hr as (x & -> & _). reflexivity.
  - apply S2 in Hr as (x & y & -> & _). reflexivity.
  - apply R1 in Hr as (i & j & s' & E & _). cbn in E. now subst.
  - apply S3 in Hr as (i & j & x & -> & _). reflexivity.
  - apply R2 in Hr as (i & j & E & _). cbn in E. now subst.
  - apply R3 in Hr as (i & j & l & s' & E & _). cbn in E. now subst.
  - apply R4 in Hr as (i & j & l & m & s' & E & _). cbn in E. now subst.
Qed.
Lemma sort_z_in l l' : sort_z l = sort_z l' -> forall x, In x l -> In x l'.
Proof.
  rewrite <- !bubblesort_sort_z. intros E x Hx. apply (Permutation_in x (proj1 (bubblesort_sorts l'))). rewrite <- E. now apply (Permutation_in x (Permutation_sym (proj1 (bubblesort_sorts l)))).
Qed.
(** If rootspaces with the same unique root on a fragment have the same electron numbers there, then every image undergoes the
    same change of electron numbers as the unique interaction: the same field operators apply. *)
Theorem C55_same_change : forall nfrags nelec scai uroot ltri keep, admissible nfrags nelec scai -> NoDup scai ->
  (forall r r' f s, (f < nfrags)%nat -> uroot (Z.of_nat r) (Z.of_nat f) = uroot (Z.of_nat r') (Z.of_nat f) -> elec nelec r f s = elec nelec r' f s) ->
  forall t, In t (interaction_tables (make_exc_tables nfrags (hopping_index nelec) scai)) -> collision_free uroot (filter keep t) ->
  forall b k fr l b' k', In ((b, k, fr), l) (snd (find_unique_exc uroot ltri (filter keep t))) -> In (b', k') l ->
  forall f s, (f < nfrags)%nat -> (s < 2)%nat -> elec nelec b' f s - elec nelec k' f s = elec nelec b f s - elec nelec k f s.
Proof.
  intros nfrags nelec scai uroot ltri keep A N Hu t Ht Hc b k fr l b' k' He Hp f s Hf Hs.
  destruct (table_len _ _ _ _ A N Ht) as (n & Hn).
  assert (Hn' : forall r, In r (filter keep t) -> length (e_frags r) = n) by (intros r Hr; apply Hn; now apply filter_In in Hr).
  destruct (C55_images uroot ltri _ n Hn' Hc) as (I1 & I2 & I3 & I4).
  destruct (in_dec Nat.eq_dec f fr) as [If|If].
  - destruct (I4 _ _ _ _ _ He Hp f If) as [E1 E2]. cbn in E1, E2. rewrite (Hu b' b f s Hf E1), (Hu k' k f s Hf E2). reflexivity.
  - assert (Eu : exists r, In r (filter keep t) /\ key_of r = (b, k, fr)).
    { assert (Hk : In (b, k, fr) (map fst (snd (find_unique_exc uroot ltri (filter keep t))))) by (change (b, k, fr) with (fst ((b, k, fr), l)); now apply in_map).
      rewrite I2 in Hk. apply in_map_iff in Hk as (r & E & Hr). eauto. }
    destruct Eu as (u & Hu' & Eu). unfold key_of in Eu. injection Eu as Eb Ek Ef. apply filter_In in Hu' as [Hu' _].
    pose proof (table_confined _ _ _ _ u f s A N Ht Hu' Hf Hs) as C1. rewrite Ef, Eb, Ek in C1. rewrite (C1 If).
    assert (J : In (sort_z (map Z.of_nat fr), up_to_swap ltri (b', k')) (map (fun r => (sort_z (map Z.of_nat (e_frags r)), up_to_swap ltri (e_bra r, e_ket r))) (filter keep t))).
    { apply (Permutation_in _ I3). apply in_flat_map. exists ((b, k, fr), l). split; [exact He|]. cbn [fst snd]. now apply (in_map (fun p => (sort_z (map Z.of_nat fr), up_to_swap ltri p))). }
    apply in_map_iff in J as (r & E & Hr). injection E as E1 E2. apply filter_In in Hr as [Hr _].
    assert (Ir : ~ In f (e_frags r)). { intros C. apply If. apply (in_map Z.of_nat) in C. apply (sort_z_in _ _ E1) in C. apply in_map_iff in C as (g & Eg & Hg). apply Nat2Z.inj in Eg. now subst. }
    pose proof (table_confined _ _ _ _ r f s A N Ht Hr Hf Hs Ir) as C2.
    assert (G : (b', k') = (e_bra r, e_ket r) \/ (b', k') = (e_ket r, e_bra r)).
    { unfold up_to_swap in E2. destruct ltri; [|left; congruence]. cbn in E2. injection E2 as E2 E3.
      destruct (Nat.eq_dec b' (e_bra r)); [left | right]; f_equal; lia. }
    destruct G as [G|G]; injection G as -> ->; lia.
Qed.
Print Assumptions C55_same_change.

(** Three rootspaces 0, 1, 2 of three fragments: 1 and 2 differ on the last fragment only, where 0 equals 1.  The move of an
    electron between the first two fragments is computed once, with the pairs (1, 0) and (2, 0) as images; read from the other
    side, rootspace 3 is transposed. *)
Definition ex_uroot (r f : Z) : Z := nth (Z.to_nat f) (nth (Z.to_nat r) [[0; 0; 0]; [1; 1; 0]; [1; 1; 1]; [0; 0; 1]] []) 0.
Example C55_example :
  find_unique_exc ex_uroot true [mkRow 1 0 [1; 0]%nat (Some 0%nat); mkRow 2 0 [1; 0]%nat (Some 0%nat); mkRow 3 1 [0; 1]%nat (Some 0%nat)]
  = ([mkRow 1 0 [1; 0]%nat (Some 0%nat)], [((1, 0, [1; 0])%nat, [(1, 0); (2, 0); (1, 3)]%nat)]).
Proof. vm_compute. reflexivity. Qed.
