(** C77: the manifolds of get_orth_basis, and the fingerprints. *)
From Coq Require Import List Bool Arith ZArith Lia Sorting.Permutation Sorting.Sorted.
From Verif Require Import Base BaseFacts SplitModel SplitFacts PropSplit.
Import ListNotations.
Local Open Scope nat_scope.

Lemma increasing_first idx : StronglySorted lt idx -> idx <> [] -> (nth 0 idx 0 =? 0) = true <-> In 0 idx.
Proof. intros HS HN. rewrite Nat.eqb_eq. destruct idx as [|x l]; [contradiction|]. cbn [nth]. inversion HS as [|? ? _ HF]; subst. rewrite Forall_forall in HF. split; [intros ->; left; reflexivity|]. intros [E|H]; [exact E|]. apply HF in H. lia. Qed.
Lemma increasing_nodup idx : StronglySorted lt idx -> NoDup idx.
Proof. induction 1 as [|x l HS IH HF]; constructor; [|exact IH]. intros H. rewrite Forall_forall in HF. apply HF in H. lia. Qed.
Lemma nth_seq idx : map (fun j => nth j idx 0) (seq 0 (length idx)) = idx.
Proof. induction idx as [|x l IH]; [reflexivity|]. cbn [length seq map nth]. f_equal. rewrite <- seq_shift, map_map. exact IH. Qed.
Lemma nodup_map_in {A B} (g : A -> B) l : (forall x y, In x l -> In y l -> g x = g y -> x = y) -> NoDup l -> NoDup (map g l).
Proof.
  induction l as [|x l IH]; intros HI HN; [constructor|]. inversion HN as [|? ? Hx Hl]; subst. cbn [map]. constructor; [|apply IH; [intros a b Ha Hb; apply HI; right; assumption|exact Hl]]. intros H. apply in_map_iff in H as (y & E & Hy). apply Hx. rewrite (HI x y); [exact Hy|left; reflexivity|right; exact Hy|symmetry; exact E].
Qed.
Lemma flat_roots l : concat (map roots_of l) = roots_of (concat l).
Proof. unfold roots_of. induction l as [|m l IH]; [reflexivity|]. cbn [map concat]. rewrite map_app, concat_app, <- IH. reflexivity. Qed.

Section Split.
Variables (nf : nat) (with_smult : bool) (spins : nat -> row) (fprint : list nat -> nat -> row).
(** ** _get_spin_split_manifolds *)
Theorem C77_submanifolds idx : StronglySorted lt idx -> idx <> [] -> (forall r, In r idx -> length (fprint idx r) = nf) -> forall ms, split nf with_smult spins fprint idx = Ok ms ->
  Permutation (concat (map roots_of ms)) idx /\
  forall m, In m ms -> m <> [] /\ matched (fprint idx) m /\ (forall b, In b m -> all_with spins (fun r => In r idx) b) /\ (is_first m = true <-> In 0 (roots_of m)).
Proof.
  intros HS HN HL ms H. pose proof (increasing_nodup idx HS) as ND. unfold split in H. set (g := fun j => nth j idx 0) in *.
  assert (IN : forall j, j < length idx -> In (g j) idx) by (intros j Hj; apply nth_In, Hj). assert (INJ : forall i j, i < length idx -> j < length idx -> g i = g j -> i = j) by (intros i j Hi Hj E; apply (proj1 (NoDup_nth idx 0) ND); assumption).
  destruct (split_idx _ _ _ _ _ _) as [ms0|] eqn:E; [|discriminate]. cbn [bind] in H. injection H as <-.
  destruct (C77_split nf (length idx) with_smult (nth 0 idx 0 =? 0) (fun j => spins (g j)) (fun j => fprint idx (g j)) ltac:(intros r Hr; apply HL, IN, Hr) ms0 E) as (P & A & _ & F).
  assert (RO : forall m, roots_of (map (fun b => mkB (b_str b) (map g (b_roots b)) (b_first b)) m) = map g (roots_of m)) by (intros m; unfold roots_of; rewrite concat_map, !map_map; reflexivity).
  split.
  - rewrite map_map. rewrite (map_ext _ _ RO), <- (map_map roots_of (map g)), <- concat_map, P. unfold g. rewrite nth_seq. reflexivity.
  - intros m Hm. apply in_map_iff in Hm as (m0 & <- & Hm0). rewrite Forall_forall in F. destruct (F m0 Hm0) as [F1 F2]. split; [|split; [|split]].
    + intros X. apply map_eq_nil in X. contradiction.
    + intros b b' Hb Hb'. apply in_map_iff in Hb as (c & <- & Hc), Hb' as (c' & <- & Hc'). cbn [b_roots]. rewrite !map_map. apply F2; assumption.
    + intros b Hb. apply in_map_iff in Hb as (c & <- & Hc). destruct (A m0 c Hm0 Hc) as (A1 & A2 & A3). split; [|split]; cbn [b_roots b_str].
      * intros X. apply map_eq_nil in X. contradiction.
      * apply nodup_map_in; [|exact A2]. intros x y Hx Hy. apply INJ; [apply A3 in Hx; tauto|apply A3 in Hy; tauto].
      * intros r. rewrite in_map_iff. split.
        -- intros (j & <- & Hj). apply A3 in Hj as [Hj Hs]. auto.
        -- intros [Hr Hs]. apply (In_nth _ _ 0) in Hr as (j & Hj & Ej). exists j. split; [exact Ej|]. apply A3. split; [exact Hj|]. unfold g. rewrite Ej. exact Hs.
    + rewrite RO. assert (X : is_first (map (fun b => mkB (b_str b) (map g (b_roots b)) (b_first b)) m0) = is_first m0) by (unfold is_first; clear; induction m0 as [|b m IH]; [reflexivity|]; cbn [map existsb b_first]; now rewrite IH). rewrite X, (C77_first _ _ _ _ _ _ ms0 E m0 Hm0), in_map_iff.
      assert (BD : forall j, In j (roots_of m0) -> j < length idx). { intros j Hj. unfold roots_of in Hj. apply in_concat in Hj as (l & Hl & Hj). apply in_map_iff in Hl as (b & <- & Hb). apply (A m0 b Hm0 Hb) in Hj. tauto. }
      split.
      * intros [E0 H0]. exists 0. split; [apply Nat.eqb_eq, E0|exact H0].
      * intros (j & Ej & Hj). assert (I0 : In 0 idx) by (rewrite <- Ej; apply IN, BD, Hj). pose proof (proj2 (increasing_first idx HS HN) I0) as E0. split; [exact E0|]. replace 0 with j; [exact Hj|]. apply INJ; [apply BD, Hj|destruct idx; [contradiction|cbn; lia]|]. rewrite Ej. unfold g. apply Nat.eqb_eq in E0. now rewrite E0.
Qed.
End Split.

(** ** get_orth_basis *)
Section Orth.
Variables (nf n : nat) (with_smult : bool) (tab spins : nat -> row) (fprint : list nat -> nat -> row) (nprods : nat -> nat).
Definition at_ (s : row) : list nat := filter (fun r => row_eqb (tab r) s) (seq 0 n).
Notation strings := (np_unique (map tab (seq 0 n))).
Notation orth := (get_orth_basis nf n with_smult tab spins fprint nprods).
Notation splt s := (split nf with_smult spins fprint (at_ s)).
Lemma in_at s r : In r (at_ s) <-> r < n /\ tab r = s.
Proof. unfold at_. rewrite filter_In, in_seq, row_eqb_spec. intuition lia. Qed.
Lemma at_increasing s : StronglySorted lt (at_ s).
Proof.
  unfold at_. generalize 0. induction n as [|k IH]; intros a; cbn [seq filter]; [constructor|]. destruct (row_eqb (tab a) s); [|apply IH]. constructor; [apply IH|]. apply Forall_forall. intros x Hx. apply filter_In in Hx as [Hx _]. apply in_seq in Hx. lia.
Qed.
Lemma at_nonempty s : In s strings -> at_ s <> [].
Proof. intros Hs. apply np_unique_in, in_map_iff in Hs as (r & E & Hr). apply in_seq in Hr. intros X. apply (in_nil (a:=r)). rewrite <- X. apply in_at. split; [lia|exact E]. Qed.

Definition inv (seen : list (list mblock)) (acc : list (list mblock) * bool) : Prop :=
  Permutation (fst acc) seen /\ (snd acc = true <-> exists m, In m seen /\ is_first m = true) /\ (snd acc = true -> is_first (hd [] (fst acc)) = true /\ fst acc <> []).
Lemma add_inv seen acc m acc' : inv seen acc -> add_manifold nprods acc m = Ok acc' -> inv (seen ++ [m]) acc'.
Proof.
  intros (P & F & H) E. unfold add_manifold in E. destruct (forallb _ m); [|discriminate]. cbn [negb] in E. destruct (is_first m) eqn:EM.
  - destruct (snd acc); [discriminate|]. injection E as <-. split; [|split]; cbn [fst snd hd].
    + rewrite P. apply Permutation_cons_append.
    + split; [intros _|reflexivity]. exists m. split; [apply in_or_app; right; left; reflexivity|exact EM].
    + intros _. split; [exact EM|discriminate].
  - injection E as <-. split; [|split]; cbn [fst snd].
    + apply Permutation_app_tail, P.
    + rewrite F. split; intros (x & Hx & Ex); exists x; (split; [|exact Ex]); [apply in_or_app; left; exact Hx|]. apply in_app_or in Hx as [Hx|[<-|[]]]; [exact Hx|congruence].
    + intros S. destruct (H S) as [H1 H2]. destruct (fst acc); [contradiction|]. split; [exact H1|discriminate].
Qed.
Lemma adds_inv ms : forall seen acc acc', inv seen acc -> foldR (add_manifold nprods) ms acc = Ok acc' -> inv (seen ++ ms) acc'.
Proof.
  induction ms as [|m ms IH]; intros seen acc acc' HI E; cbn [foldR] in E; [injection E as <-; rewrite app_nil_r; exact HI|]. destruct (add_manifold nprods acc m) as [a|] eqn:EA; [|discriminate]. cbn [bind] in E.
  pose proof (IH _ _ _ (add_inv _ _ _ _ HI EA) E) as X. rewrite <- app_assoc in X. exact X.
Qed.
Lemma loop_inv U : forall seen acc acc', inv seen acc -> foldR (fun acc s => do ms <- splt s ;; foldR (add_manifold nprods) ms acc) U acc = Ok acc' ->
  exists mss, Forall2 (fun s ms => splt s = Ok ms) U mss /\ inv (seen ++ concat mss) acc'.
Proof.
  induction U as [|s U IH]; intros seen acc acc' HI E; cbn [foldR] in E; [injection E as <-; exists []; split; [constructor|]; cbn [concat]; rewrite app_nil_r; exact HI|].
  destruct (splt s) as [ms|] eqn:ES; [|discriminate]. cbn [bind] in E. destruct (foldR (add_manifold nprods) ms acc) as [a|] eqn:EA; [|discriminate]. cbn [bind] in E.
  destruct (IH _ _ _ (adds_inv _ _ _ _ HI EA) E) as (mss & F & X). exists (ms :: mss). split; [constructor; assumption|]. cbn [concat]. rewrite app_assoc. exact X.
Qed.

Theorem C77_orth : (forall s r, In s strings -> In r (at_ s) -> length (fprint (at_ s) r) = nf) -> forall ms, orth = Ok (Some ms) ->
  Permutation (concat (map roots_of ms)) (seq 0 n) /\ In 0 (roots_of (hd [] ms)) /\
  forall m, In m ms -> m <> [] /\ exists s, (forall b, In b m -> all_with spins (fun r => r < n /\ tab r = s) b) /\ matched (fprint (at_ s)) m.
Proof.
  intros HL ms H. unfold get_orth_basis in H. match type of H with (if negb ?c then _ else _) = _ => destruct c; [|discriminate] end. cbn [negb] in H. match type of H with bind ?f _ = _ => destruct f as [acc|] eqn:E; [|discriminate] end. cbn [bind] in H. destruct (snd acc) eqn:ES; [|discriminate]. injection H as <-.
  destruct (loop_inv strings [] ([], false) acc) as (mss & F & P & I & HD).
  { split; [reflexivity|]. cbn [snd fst]. split; [split; [discriminate|intros (m & [] & _)]|discriminate]. }
  { exact E. }
  cbn [app] in *. assert (K : forall s ms, In s strings -> splt s = Ok ms -> _) by (intros s ms0 Hs; exact (C77_submanifolds nf with_smult spins fprint (at_ s) (at_increasing s) (at_nonempty s Hs) (fun r Hr => HL s r Hs Hr) ms0)).
  assert (M : forall m, In m (concat mss) -> exists s ms0, In s strings /\ splt s = Ok ms0 /\ In m ms0).
  { intros m Hm. apply in_concat in Hm as (l & Hl & Hm). clear -F Hl Hm. induction F as [|s l0 U mss ES F IH]; [contradiction|]. destruct Hl as [->|Hl]; [exists s, l; repeat split; [left; reflexivity|exact ES|exact Hm]|]. destruct (IH Hl) as (s' & ms0 & H1 & H2 & H3). exists s', ms0. repeat split; [right; exact H1|exact H2|exact H3]. }
  split; [|split].
  - assert (X : Permutation (concat (map roots_of (fst acc))) (concat (map roots_of (concat mss)))) by (rewrite !flat_roots; unfold roots_of; clear -P; induction P; cbn [map concat]; [reflexivity|rewrite !map_app, !concat_app; apply Permutation_app_head; assumption|rewrite !map_app, !concat_app, !app_assoc; apply Permutation_app_tail, Permutation_app_comm|etransitivity; eassumption]).
    rewrite X. transitivity (concat (map at_ strings)); [|exact (split_unique tab (seq 0 n))].
    assert (Y : forall U, (forall s, In s U -> In s strings) -> Forall2 (fun s ms => splt s = Ok ms) U mss -> Permutation (concat (map roots_of (concat mss))) (concat (map at_ U))); [|exact (Y strings (fun s h => h) F)].
    clear -K. intros U S' F. induction F as [|s l U mss ES F IH]; [reflexivity|]. cbn [concat map]. rewrite map_app, concat_app. apply Permutation_app; [exact (proj1 (K s l (S' s (or_introl eq_refl)) ES))|]. apply IH. intros s' Hs'. apply S'. right. exact Hs'.
  - destruct (HD ES) as [H1 H2]. assert (IM : In (hd [] (fst acc)) (concat mss)) by (apply (Permutation_in _ P); destruct (fst acc); [contradiction|left; reflexivity]). destruct (M _ IM) as (s & ms0 & Hs & ES0 & Hm). apply (proj2 (K s ms0 Hs ES0) _ Hm). exact H1.
  - intros m Hm. apply (Permutation_in _ P) in Hm. destruct (M m Hm) as (s & ms0 & Hs & ES0 & Hm0). destruct (proj2 (K s ms0 Hs ES0) m Hm0) as (K1 & K2 & K3 & _). split; [exact K1|]. exists s. split; [|exact K2]. intros b Hb. destruct (K3 b Hb) as (B1 & B2 & B3). split; [exact B1|split; [exact B2|]]. intros r. rewrite B3, in_at. reflexivity.
Qed.

(** it fails only on m strings with different numbers of rootspaces *)
Definition ragged_at (s : row) : Prop := exists r r', In r (at_ s) /\ In r' (at_ s) /\
  length (filter (fun x => row_eqb (spins x) (spins r)) (at_ s)) <> length (filter (fun x => row_eqb (spins x) (spins r')) (at_ s)).
Lemma filter_map_len {A B} (g : A -> B) (p : B -> bool) l : length (filter p (map g l)) = length (filter (fun x => p (g x)) l).
Proof. induction l as [|x l IH]; [reflexivity|]. cbn [map filter]. destruct (p (g x)); cbn [length]; now rewrite IH. Qed.
Lemma split_total s : (exists ms, splt s = Ok ms) \/ splt s = Raise ValueError /\ with_smult = true /\ ragged_at s.
Proof.
  unfold split. destruct (C77_raises nf (length (at_ s)) with_smult (nth 0 (at_ s) 0 =? 0) (fun j => spins (nth j (at_ s) 0)) (fun j => fprint (at_ s) (nth j (at_ s) 0))) as [(ms & ->)|(-> & W & r & r' & Hr & Hr' & N)]; [left; eexists; reflexivity|].
  right. split; [reflexivity|]. split; [exact W|]. exists (nth r (at_ s) 0), (nth r' (at_ s) 0). split; [apply nth_In, Hr|]. split; [apply nth_In, Hr'|]. intros E. apply N.
  pose proof (fun m => filter_map_len (fun j => nth j (at_ s) 0) (fun x => row_eqb (spins x) m) (seq 0 (length (at_ s)))) as L. rewrite nth_seq in L. rewrite !L in E. exact E.
Qed.
Lemma adds_total ms : forall acc, (forall m, In m ms -> forall b b', In b m -> In b' m -> fold_right Nat.add 0 (map nprods (b_roots b)) = fold_right Nat.add 0 (map nprods (b_roots b'))) ->
  (forall seen, inv seen acc -> NoDup (map (fun _ => tt) (filter is_first (seen ++ ms)))) -> (exists seen, inv seen acc) -> exists acc', foldR (add_manifold nprods) ms acc = Ok acc'.
Proof.
  induction ms as [|m ms IH]; intros acc HN HU (seen & HI); [eexists; reflexivity|]. cbn [foldR].
  assert (A : exists a, add_manifold nprods acc m = Ok a).
  { unfold add_manifold. match goal with |- context [forallb ?p m] => assert (X : forallb p m = true) end.
    { apply forallb_forall. intros b Hb. apply Nat.eqb_eq. apply (HN m (or_introl eq_refl)); [exact Hb|]. destruct m; [contradiction|left; reflexivity]. }
    rewrite X. cbn [negb]. destruct (is_first m) eqn:EM; [|eexists; reflexivity]. destruct (snd acc) eqn:ES; [|eexists; reflexivity]. exfalso. destruct HI as (P & F & H). destruct (proj1 F ES) as (x & Hx & Ex).
    pose proof (HU seen (conj P (conj F H))) as ND. rewrite filter_app, map_app in ND. cbn [filter] in ND. rewrite EM in ND. cbn [map] in ND. apply NoDup_remove_2 in ND. apply ND. apply in_or_app. left. apply (in_map (fun _ => tt) _ x). apply filter_In. auto. }
  destruct A as (a & EA). rewrite EA. cbn [bind]. apply IH.
  - intros x Hx. apply HN. right. exact Hx.
  - intros seen' HI'. pose proof (add_inv _ _ _ _ HI EA) as HI2. pose proof (HU seen HI) as ND. assert (PP : Permutation (seen' ++ ms) (seen ++ m :: ms)). { transitivity ((seen ++ [m]) ++ ms); [|rewrite <- app_assoc; reflexivity]. apply Permutation_app_tail. destruct HI' as [P1 _], HI2 as [P2 _]. rewrite <- P1. exact P2. }
    apply (Permutation_NoDup (l := map (fun _ => tt) (filter is_first (seen ++ m :: ms)))); [|exact ND]. apply Permutation_map. symmetry. clear -PP. induction PP; cbn [filter]; [reflexivity| | |etransitivity; eassumption].
    + destruct (is_first x); [now apply perm_skip|assumption].
    + destruct (is_first x), (is_first y); try reflexivity; try apply perm_swap.
  - exists (seen ++ [m]). exact (add_inv _ _ _ _ HI EA).
Qed.

Hypothesis HL : forall s r, In s strings -> In r (at_ s) -> length (fprint (at_ s) r) = nf.
(** rootspaces with one fingerprint have the same number of product states *)
Hypothesis HN : forall s r r', In s strings -> In r (at_ s) -> In r' (at_ s) -> fprint (at_ s) r = fprint (at_ s) r' -> nprods r = nprods r'.
Lemma sub s ms : In s strings -> splt s = Ok ms -> Permutation (concat (map roots_of ms)) (at_ s) /\
  forall m, In m ms -> m <> [] /\ matched (fprint (at_ s)) m /\ (forall b, In b m -> all_with spins (fun r => In r (at_ s)) b) /\ (is_first m = true <-> In 0 (roots_of m)).
Proof. intros Hs. exact (C77_submanifolds nf with_smult spins fprint (at_ s) (at_increasing s) (at_nonempty s Hs) (fun r Hr => HL s r Hs Hr) ms). Qed.
Lemma sub_nprods s ms : In s strings -> splt s = Ok ms -> forall m, In m ms -> forall b b', In b m -> In b' m -> fold_right Nat.add 0 (map nprods (b_roots b)) = fold_right Nat.add 0 (map nprods (b_roots b')).
Proof.
  intros Hs E m Hm b b' Hb Hb'. destruct (proj2 (sub s ms Hs E) m Hm) as (_ & M & A & _). pose proof (M b b' Hb Hb') as X. destruct (A b Hb) as (_ & _ & I). destruct (A b' Hb') as (_ & _ & I'). f_equal.
  assert (Y : forall l l', (forall r, In r l -> In r (at_ s)) -> (forall r, In r l' -> In r (at_ s)) -> map (fprint (at_ s)) l = map (fprint (at_ s)) l' -> map nprods l = map nprods l').
  { induction l as [|x l IH]; intros [|y l'] H1 H2 HE; try discriminate HE; [reflexivity|]. cbn [map] in HE |- *. injection HE as E1 E2. f_equal; [apply (HN s); auto using in_eq|]. apply IH; [intros r Hr; apply H1; right; exact Hr|intros r Hr; apply H2; right; exact Hr|exact E2]. }
  apply Y; [intros r Hr; apply I, Hr|intros r Hr; apply I', Hr|exact X].
Qed.
Lemma all_roots U mss : (forall s, In s U -> In s strings) -> Forall2 (fun s ms => splt s = Ok ms) U mss -> Permutation (concat (map roots_of (concat mss))) (concat (map at_ U)).
Proof. intros S' F. induction F as [|s l U mss ES F IH]; [reflexivity|]. cbn [concat map]. rewrite map_app, concat_app. apply Permutation_app; [exact (proj1 (sub s l (S' s (or_introl eq_refl)) ES))|]. apply IH. intros s' Hs'. apply S'. right. exact Hs'. Qed.
Lemma all_first U mss : (forall s, In s U -> In s strings) -> Forall2 (fun s ms => splt s = Ok ms) U mss -> forall m, In m (concat mss) -> is_first m = true <-> In 0 (roots_of m).
Proof. intros S' F m Hm. induction F as [|s l U mss ES F IH]; [contradiction|]. cbn [concat] in Hm. apply in_app_or in Hm as [Hm|Hm]; [apply (proj2 (sub s l (S' s (or_introl eq_refl)) ES) m Hm)|]. apply IH; [|exact Hm]. intros s' Hs'. apply S'. right. exact Hs'. Qed.
Lemma nodup_at U : NoDup U -> NoDup (concat (map at_ U)).
Proof.
  induction U as [|u U IH]; intros HU; [constructor|]. inversion HU as [|? ? Hu HU']; subst. cbn [map concat]. assert (D : forall x, In x (at_ u) -> ~ In x (concat (map at_ U))).
  { intros x Hx Hx'. apply in_at in Hx as [_ Hx]. apply in_concat in Hx' as (l & Hl & Hx'). apply in_map_iff in Hl as (v & <- & Hv). apply in_at in Hx' as [_ Hx']. apply Hu. congruence. }
  pose proof (increasing_nodup _ (at_increasing u)) as N1. specialize (IH HU'). induction (at_ u) as [|x l IHl]; [exact IH|]. inversion N1 as [|? ? Hx Hl]; subst. cbn [app]. constructor; [|apply IHl; [intros y Hy; apply D; right; exact Hy|exact Hl]]. intros H. apply in_app_or in H as [H|H]; [contradiction|]. exact (D x (or_introl eq_refl) H).
Qed.
Lemma one_first (D : list (list mblock)) : NoDup (concat (map roots_of D)) -> (forall m, In m D -> is_first m = true -> In 0 (roots_of m)) -> NoDup (map (fun _ => tt) (filter is_first D)).
Proof.
  induction D as [|m D IH]; intros ND HF; [constructor|]. cbn [map concat] in ND. assert (ND' : NoDup (concat (map roots_of D))) by (clear -ND; induction (roots_of m) as [|x l IHl]; [exact ND|]; apply IHl; inversion ND; assumption).
  cbn [filter]. destruct (is_first m) eqn:EM; [|apply IH; [exact ND'|intros x Hx; apply HF; right; exact Hx]]. assert (X : filter is_first D = []).
  { destruct (filter is_first D) as [|x l] eqn:EX; [reflexivity|]. exfalso. assert (Hx : In x (filter is_first D)) by (rewrite EX; left; reflexivity). apply filter_In in Hx as [Hx Ex].
    pose proof (HF m (or_introl eq_refl) EM) as H0. pose proof (HF x (or_intror Hx) Ex) as H1. assert (H2 : In 0 (concat (map roots_of D))) by (apply in_concat; exists (roots_of x); split; [apply in_map, Hx|exact H1]).
    clear -ND H0 H2. induction (roots_of m) as [|y l IHl]; [contradiction|]. inversion ND as [|? ? Hy Hl]; subst. destruct H0 as [->|H0]; [apply Hy, in_or_app; right; exact H2|exact (IHl Hl H0)]. }
  rewrite X. cbn [map]. constructor; [intros []|constructor].
Qed.
Lemma loop_total U : forall U0 mss0 acc, NoDup (U0 ++ U) -> (forall s, In s (U0 ++ U) -> In s strings) -> Forall2 (fun s ms => splt s = Ok ms) U0 mss0 -> inv (concat mss0) acc ->
  let r := foldR (fun acc s => do ms <- splt s ;; foldR (add_manifold nprods) ms acc) U acc in
  (exists acc', r = Ok acc') \/ r = Raise ValueError /\ with_smult = true /\ exists s, In s U /\ ragged_at s.
Proof.
  induction U as [|s U IH]; intros U0 mss0 acc ND SS F HI; cbn [foldR]; cbv zeta; [left; eexists; reflexivity|].
  destruct (split_total s) as [(ms & ES)|(ES & W & R)]; rewrite ES; cbn [bind]; [|right; split; [reflexivity|]; split; [exact W|]; exists s; split; [left; reflexivity|exact R]].
  assert (Hs : In s strings) by (apply SS, in_or_app; right; left; reflexivity).
  assert (F' : Forall2 (fun s ms => splt s = Ok ms) (U0 ++ [s]) (mss0 ++ [ms])) by (apply Forall2_app; [exact F|constructor; [exact ES|constructor]]).
  assert (ND' : NoDup (U0 ++ [s])) by (clear -ND; replace (U0 ++ s :: U) with ((U0 ++ [s]) ++ U) in ND by (rewrite <- app_assoc; reflexivity); induction (U0 ++ [s]) as [|x l IHl]; [constructor|]; inversion ND as [|? ? H1 H2]; subst; constructor; [intros H; apply H1, in_or_app; left; exact H|exact (IHl H2)]).
  assert (SS' : forall x, In x (U0 ++ [s]) -> In x strings) by (intros x Hx; apply SS; apply in_app_or in Hx as [Hx|[<-|[]]]; apply in_or_app; [left; exact Hx|right; left; reflexivity]).
  assert (C : concat (mss0 ++ [ms]) = concat mss0 ++ ms) by (rewrite concat_app; cbn [concat]; now rewrite app_nil_r).
  destruct (adds_total ms acc (sub_nprods s ms Hs ES)) as (a & EA).
  { intros seen HI'. assert (PP : Permutation (concat mss0 ++ ms) (seen ++ ms)) by (apply Permutation_app_tail; destruct HI as [P1 _], HI' as [P2 _]; rewrite <- P1; exact P2).
    apply (Permutation_NoDup (l := map (fun _ => tt) (filter is_first (concat mss0 ++ ms)))); [apply Permutation_map; clear -PP; induction PP; cbn [filter]; [reflexivity|destruct (is_first x); [now apply perm_skip|assumption]|destruct (is_first x), (is_first y); try reflexivity; apply perm_swap|etransitivity; eassumption]|].
    rewrite <- C. apply one_first; [apply (Permutation_NoDup (Permutation_sym (all_roots _ _ SS' F'))), nodup_at, ND'|]. intros m Hm. apply (all_first _ _ SS' F' m Hm). }
  { exists (concat mss0). exact HI. }
  rewrite EA. cbn [bind]. destruct (IH (U0 ++ [s]) (mss0 ++ [ms]) a) as [X|(X & W & s' & Hs' & R)].
  - rewrite <- app_assoc. exact ND.
  - rewrite <- app_assoc. exact SS.
  - exact F'.
  - rewrite C. exact (adds_inv _ _ _ _ HI EA).
  - left. exact X.
  - right. split; [exact X|]. split; [exact W|]. exists s'. split; [right; exact Hs'|exact R].
Qed.
Theorem C77_total : 0 < n -> (exists ms, orth = Ok ms) \/ orth = Raise ValueError /\ with_smult = true /\ exists s, In s strings /\ ragged_at s.
Proof.
  intros Hn. unfold get_orth_basis. match goal with |- context [if negb ?c then _ else _] => destruct c; cbn [negb]; [|left; eexists; reflexivity] end.
  assert (I0 : inv [] ([], false)) by (split; [reflexivity|]; cbn [snd fst]; split; [split; [discriminate|intros (m & [] & _)]|discriminate]).
  destruct (loop_total strings [] [] ([], false) (np_unique_nodup _) (fun s h => h) (Forall2_nil _) I0) as [(acc & E)|(E & W & R)]; match goal with |- context [bind ?f ?k] => change (bind f k) with (bind (foldR (fun acc s => do ms <- splt s ;; foldR (add_manifold nprods) ms acc) strings ([], false)) k) end; rewrite E; cbn [bind]; [|right; auto].
  destruct (loop_inv strings [] ([], false) acc I0 E) as (mss & F & P & I & _). cbn [app] in *. assert (S : snd acc = true); [|rewrite S; left; eexists; reflexivity]. apply I.
  assert (Z : In 0 (concat (map roots_of (concat mss)))) by (apply (Permutation_in _ (Permutation_sym (all_roots strings mss (fun s h => h) F))), (Permutation_in _ (Permutation_sym (split_unique tab (seq 0 n)))), in_seq; lia).
  apply in_concat in Z as (l & Hl & Z). apply in_map_iff in Hl as (m & <- & Hm). exists m. split; [exact Hm|]. apply (all_first strings mss (fun s h => h) F m Hm). exact Z.
Qed.
(** no basis change is made if and only if no two rootspaces have the same electrons and multiplicities *)
Theorem C77_null : orth = Ok None <-> (forall r r', r < n -> r' < n -> tab r = tab r' -> r = r').
Proof.
  assert (T : existsb (fun s => 1 <? length (at_ s)) strings = true <-> exists r r', r < n /\ r' < n /\ tab r = tab r' /\ r <> r').
  { rewrite existsb_exists. split.
    - intros (s & _ & L). apply Nat.ltb_lt in L. pose proof (at_increasing s) as SS. pose proof (fun r => in_at s r) as I. destruct (at_ s) as [|r [|r' l]]; cbn [length] in L; [lia|lia|]. inversion SS as [|? ? _ F]; subst. inversion F as [|? ? Lt _]; subst.
      pose proof (proj1 (I r) (or_introl eq_refl)) as [A1 A2]. pose proof (proj1 (I r') (or_intror (or_introl eq_refl))) as [B1 B2]. exists r, r'. repeat split; [exact A1|exact B1|congruence|lia].
    - intros (r & r' & Hr & Hr' & E & N). exists (tab r). split; [apply np_unique_in, in_map, in_seq; lia|]. apply Nat.ltb_lt.
      assert (I1 : In r (at_ (tab r))) by (apply in_at; auto). assert (I2 : In r' (at_ (tab r))) by (apply in_at; auto). destruct (at_ (tab r)) as [|x [|y l]]; [contradiction| |cbn [length]; lia]. destruct I1 as [->|[]]. destruct I2 as [->|[]]. contradiction. }
  unfold get_orth_basis. change (existsb _ _) with (existsb (fun s => 1 <? length (at_ s)) strings). destruct (existsb (fun s => 1 <? length (at_ s)) strings) eqn:E; cbn [negb].
  - destruct (proj1 T eq_refl) as (r & r' & Hr & Hr' & Et & Nr). split; [|intros H; elim Nr; auto]. match goal with |- bind ?f _ = _ -> _ => destruct f as [acc|]; cbn [bind]; [|discriminate] end. destruct (snd acc); discriminate.
  - split; [|reflexivity]. intros _ r r' Hr Hr' Et. destruct (Nat.eq_dec r r') as [|N]; [assumption|]. discriminate (proj2 T (ex_intro _ r (ex_intro _ r' (conj Hr (conj Hr' (conj Et N)))))).
Qed.
End Orth.

(** ** findings *)
(** "I don't want to require that": basis.py:79-81.  Two fragments with one electron each and three rootspaces, two with the spins up, down
    and one with down, up: ValueError. *)
Theorem C77_ragged_refuted : exists tab spins fprint nprods, (forall s r, length (fprint s r) = 2) /\ (forall r, length (spins r) = 2) /\ get_orth_basis 2 3 true tab spins fprint nprods = Raise ValueError.
Proof.
  exists (fun _ => [1; 1; 2; 2]%Z), (fun r => if r =? 2 then [-1; 1]%Z else [1; -1]%Z), (fun _ r => match r with 1 => [1; 1]%Z | _ => [0; 0]%Z end), (fun _ => 1). split; [intros s [|[|r]]; reflexivity|]. split; [intros r; destruct (r =? 2); reflexivity|vm_compute; reflexivity].
Qed.
(** "The index of the unique image of each set of CI vectors in the list": citools.py:260-261.  Three roots, the first two of which are the
    same and the third one different: the image of the third one is given as root 1, which is a copy of root 0. *)
Theorem C77_index_refuted : exists n u1 u2 r, r < n /\ (forall r, r < n -> u1 r <= r /\ u1 (u1 r) = u1 r) /\ (forall l k, k < length l -> u2 l k = k) /\ u1 r = r /\ with_spin n u1 u2 r = Ok 1 /\ u1 1 = 0 /\ r = 2.
Proof. exists 3, (fun r => match r with 2 => 2 | _ => 0 end), (fun _ k => k), 2. split; [lia|]. split; [intros [|[|[|r]]] H; cbn; lia|]. split; [reflexivity|]. repeat split. Qed.
(** As fingerprints the numbers are right: equal if and only if _get_unique_roots_with_spin gives the unique roots the same image. *)
Theorem C77_fingerprint n u1 u2 : (forall r, r < n -> u1 r < n /\ u1 (u1 r) = u1 r) ->
  let idx := filter (fun r => u1 r =? r) (seq 0 n) in
  forall r, r < n -> exists k, k < length idx /\ nth k idx 0 = u1 r /\ with_spin n u1 u2 r = Ok (u2 idx k).
Proof.
  intros HU idx r Hr. unfold with_spin. fold idx. assert (HI : In (u1 r) idx) by (apply filter_In; destruct (HU r Hr) as [H1 H2]; split; [apply in_seq; lia|apply Nat.eqb_eq, H2]).
  assert (G : forall l k0, In (u1 r) l -> exists k, k < length l /\ nth k l 0 = u1 r /\
    (fix pos (l : list nat) (k : nat) : res nat := match l with [] => Raise AssertionError | x :: l' => if x =? u1 r then Ok (u2 idx k) else pos l' (S k) end) l k0 = Ok (u2 idx (k0 + k))).
  { induction l as [|x l IH]; intros k0 Hx; [contradiction|]. destruct (Nat.eqb_spec x (u1 r)) as [E|E].
    - exists 0. rewrite Nat.add_0_r. split; [cbn; lia|]. split; [exact E|reflexivity].
    - destruct Hx as [Hx|Hx]; [contradiction|]. destruct (IH (S k0) Hx) as (k & H1 & H2 & H3). exists (S k). split; [cbn; lia|]. split; [exact H2|]. replace (k0 + S k) with (S k0 + k) by lia. exact H3. }
  destruct (G idx 0 HI) as (k & H1 & H2 & H3). exists k. auto.
Qed.

(** Six rootspaces of two fragments: 0 and 4 with both electrons in the first one, the others with one electron in each.  Rootspaces 1 and 2 have
    spins up, down; 3 and 5 down, up, with the CI vectors in the other order; rootspace 0 goes first. *)
Example C77_example : let tab r := if (r =? 0) || (r =? 4) then [2; 0]%Z else [1; 1]%Z in
  let spins r := match r with 0 | 4 => [0; 0]%Z | 1 | 2 => [1; -1]%Z | _ => [-1; 1]%Z end in
  let fprint (_ : list nat) r := match r with 1 | 5 => [1; 0]%Z | 2 | 3 => [0; 1]%Z | 0 => [0; 0]%Z | _ => [1; 1]%Z end in
  exists ms, get_orth_basis 2 6 true tab spins fprint (fun _ => 1) = Ok (Some ms) /\ map (map b_roots) ms = [[[0; 4]]; [[1; 2]; [5; 3]]] /\ map (map b_str) ms = [[[0; 0]]; [[1; -1]; [-1; 1]]]%Z.
Proof. cbv zeta. eexists. split; [vm_compute; reflexivity|]. split; vm_compute; reflexivity. Qed.
Print Assumptions C77_submanifolds.
Print Assumptions C77_orth.
Print Assumptions C77_total.
Print Assumptions C77_null.
Print Assumptions C77_ragged_refuted.
Print Assumptions C77_index_refuted.
Print Assumptions C77_fingerprint.
Print Assumptions C77_example.
