(** Proofs about the sign-factor functions. *)
From Coq Require Import List Arith Lia Bool.
From Verif Require Import Base BaseFacts Anti SignsModel.
Import ListNotations.

Lemma sumN_app a b : sumN (a ++ b) = sumN a + sumN b.
Proof. induction a; cbn; auto. fold (sumN (a0 ++ b)) (sumN a0). lia. Qed.
Lemma sumN_cons x l : sumN (x :: l) = x + sumN l.
Proof. reflexivity. Qed.
Lemma length_concat {A} (l : list (list A)) : length (concat l) = sumN (map (@length A) l).
Proof. induction l; auto. cbn [concat map]. rewrite app_length, sumN_cons. lia. Qed.

Lemma crossings_app {A} (X Y : list (bool * list A)) :
  crossings (X ++ Y) = crossings X + crossings Y + length (sel X) * length (unsel Y).
Proof.
  induction X as [|[[|] b] X IH]; cbn [app crossings]; auto.
  rewrite IH. unfold unsel, sel. cbn [filter fst map snd concat].
  rewrite filter_app, map_app, concat_app, !app_length. nia.
Qed.

(** ** C11 *)
Definition spin_sum (na nb : list nat) : nat :=
  sumN (map (fun p => sumN (firstn (fst p + 1) na) * snd p)
            (combine (seq 0 (length (tl nb))) (tl nb))).

Lemma spin_sum_gen x na nb : forall k,
  sumN (map (fun p => sumN (firstn (fst p + 1) (x :: na)) * snd p) (combine (seq k (length nb)) nb))
  = x * sumN nb + sumN (map (fun p => sumN (firstn (fst p) na) * snd p) (combine (seq k (length nb)) nb)).
Proof.
  induction nb as [|y nb IH]; intros k; [cbn; lia|].
  cbn [length seq combine map fst snd]. rewrite !sumN_cons, IH.
  rewrite Nat.add_1_r. cbn [firstn]. rewrite sumN_cons. lia.
Qed.

Lemma spin_sum_cons x na y nb : length na = length nb ->
  spin_sum (x :: na) (y :: nb) = x * sumN nb + spin_sum na nb.
Proof.
  intros HL. unfold spin_sum. cbn [tl]. rewrite spin_sum_gen. f_equal.
  destruct nb as [|z nb]; auto. cbn [length seq combine map fst snd tl firstn].
  rewrite sumN_cons. cbn [sumN fold_right]. rewrite Nat.mul_0_l, Nat.add_0_l.
  f_equal. rewrite <- seq_shift.
  generalize (seq 0 (length nb)). clear. intros l. revert nb. induction l; intros [|z nb]; cbn; auto.
  rewrite Nat.add_1_r. f_equal. apply IHl.
Qed.

Definition spin_blocks (P : list (list nat * list nat)) : list (bool * list nat) :=
  flat_map (fun p => [(false, fst p); (true, snd p)]) (rev P).

Lemma spin_blocks_cons p P : spin_blocks (p :: P) = spin_blocks P ++ [(false, fst p); (true, snd p)].
Proof. unfold spin_blocks. cbn [rev]. rewrite flat_map_app. cbn. auto. Qed.

Lemma sel_app {A} (X Y : list (bool * list A)) : sel (X ++ Y) = sel X ++ sel Y.
Proof. unfold sel. rewrite filter_app, map_app, concat_app. auto. Qed.
Lemma unsel_app {A} (X Y : list (bool * list A)) : unsel (X ++ Y) = unsel X ++ unsel Y.
Proof. unfold unsel. rewrite filter_app, map_app, concat_app. auto. Qed.
Lemma allw_app {A} (X Y : list (bool * list A)) : allw (X ++ Y) = allw X ++ allw Y.
Proof. unfold allw. rewrite map_app, concat_app. auto. Qed.

Lemma spin_sel P : sel (spin_blocks P) = concat (rev (map snd P)).
Proof.
  induction P as [|p P IH]; auto. rewrite spin_blocks_cons, sel_app, IH. cbn [map rev].
  rewrite concat_app. unfold sel. cbn. auto.
Qed.
Lemma spin_unsel P : unsel (spin_blocks P) = concat (rev (map fst P)).
Proof.
  induction P as [|p P IH]; auto. rewrite spin_blocks_cons, unsel_app, IH. cbn [map rev].
  rewrite concat_app. unfold unsel. cbn. auto.
Qed.
Lemma spin_allw P : allw (spin_blocks P) = concat (rev (map (fun p => fst p ++ snd p) P)).
Proof.
  induction P as [|p P IH]; auto. rewrite spin_blocks_cons, allw_app, IH. cbn [map rev].
  rewrite concat_app. unfold allw. cbn. rewrite !app_nil_r. auto.
Qed.
Lemma length_concat_rev {A} (l : list (list A)) : length (concat (rev l)) = sumN (map (@length A) l).
Proof.
  induction l; auto. cbn [rev map]. rewrite concat_app, app_length, IHl, sumN_cons. cbn [concat].
  rewrite app_nil_r. lia.
Qed.

Lemma spin_crossings P :
  crossings (spin_blocks P) =
  spin_sum (map (fun p => length (fst p)) P) (map (fun p => length (snd p)) P).
Proof.
  induction P as [|p P IH]; auto.
  rewrite spin_blocks_cons, crossings_app, IH, spin_sel. cbn [map].
  rewrite spin_sum_cons by (rewrite !map_length; auto).
  unfold unsel. cbn [crossings unsel filter map concat negb fst snd].
  rewrite length_concat_rev, map_map, !app_nil_r. cbn [length]. lia.
Qed.

Lemma map_fst_combine {A B} (l : list A) (l' : list B) : length l = length l' -> map fst (combine l l') = l.
Proof. revert l'; induction l; intros [|y l'] H; cbn in *; try lia; f_equal; auto. Qed.
Lemma map_snd_combine {A B} (l : list A) (l' : list B) : length l = length l' -> map snd (combine l l') = l'.
Proof. revert l'; induction l; intros [|y l'] H; cbn in *; try lia; f_equal; auto. Qed.

Theorem spin_shuffle_sign (A B : list (list nat)) :
  length A = length B ->
  NoDup (concat (rev (map (fun p => fst p ++ snd p) (combine A B)))) ->
  exists b, fermion_spin_shuffle (map (@length nat) A) (map (@length nat) B) = Ok b /\
    anti b (concat (rev (map (fun p => fst p ++ snd p) (combine A B))))
           (concat (rev A) ++ concat (rev B)).
Proof.
  intros HL HN. exists (Nat.odd (crossings (spin_blocks (combine A B)))). split.
  - unfold fermion_spin_shuffle, sign. rewrite !map_length, HL, Nat.eqb_refl. cbn [py_assert].
    rewrite spin_crossings. unfold spin_sum.
    rewrite <- (map_map fst (@length nat)), <- (map_map snd (@length nat)).
    rewrite map_fst_combine, map_snd_combine by auto. reflexivity.
  - pose proof (anti_partition (spin_blocks (combine A B))) as H.
    rewrite spin_allw, spin_sel, spin_unsel, map_fst_combine, map_snd_combine in H by auto. auto.
Qed.

(** ** CPython sets of integers below 8 iterate in ascending order *)
Definition mem (x : nat) (l : list nat) : bool := existsb (Nat.eqb x) l.
Lemma mem_iff x l : mem x l = true <-> In x l.
Proof.
  unfold mem. rewrite existsb_exists. split.
  - intros (y & Hy & E). apply Nat.eqb_eq in E. subst; auto.
  - intros H. exists x; split; auto. apply Nat.eqb_refl.
Qed.

Definition tab (S : list nat) (n : nat) : stable :=
  map (fun i => if mem i S then Some i else None) (seq 0 n).

Lemma tab_ext S S' n : (forall i, i < n -> mem i S = mem i S') -> tab S n = tab S' n.
Proof. intros H. apply map_ext_in. intros i Hi. apply in_seq in Hi. rewrite H by lia. auto. Qed.
Lemma tab_length S n : length (tab S n) = n.
Proof. unfold tab. rewrite map_length, seq_length. auto. Qed.
Lemma nth_error_seq_lt n : forall s k, k < n -> nth_error (seq s n) k = Some (s + k).
Proof.
  induction n; intros s [|k] H; cbn; try lia; [f_equal; lia|]. rewrite IHn by lia. f_equal; lia.
Qed.
Lemma tab_nth S n k : k < n -> nth k (tab S n) None = if mem k S then Some k else None.
Proof.
  intros H. apply nth_error_nth. unfold tab. rewrite nth_error_map, nth_error_seq_lt by auto. auto.
Qed.
Lemma tab_nil n : tab [] n = repeat None n.
Proof. unfold tab. cbn. generalize 0. induction n; intros k; cbn; f_equal; auto. Qed.
Lemma tab_elems S n : elems (tab S n) = filter (fun i => mem i S) (seq 0 n).
Proof.
  unfold elems, tab. induction (seq 0 n) as [|i l IH]; auto. cbn [map flat_map filter].
  destruct (mem i S); cbn; rewrite IH; auto.
Qed.
Lemma upd_map_seq {B} (f : nat -> B) g k : forall s n, s <= k < s + n ->
  upd (k - s) g (map f (seq s n)) = map (fun i => if Nat.eqb i k then g (f i) else f i) (seq s n).
Proof.
  intros s n; revert s; induction n as [|n IH]; intros s H; [lia|].
  cbn [seq map]. destruct (Nat.eqb_spec s k) as [->|Hne].
  - rewrite Nat.sub_diag. cbn [upd]. f_equal. apply map_ext_in. intros i Hi. apply in_seq in Hi.
    destruct (Nat.eqb_spec i k); auto; lia.
  - replace (k - s) with (S (k - S s)) by lia. cbn [upd]. f_equal. apply IH. lia.
Qed.
Lemma tab_put S n k : k < n -> put (tab S n) k k = tab (k :: S) n.
Proof.
  intros H. unfold put, tab. rewrite <- (Nat.sub_0_r k) at 1. rewrite upd_map_seq by lia.
  apply map_ext_in. intros i Hi. unfold mem. cbn [existsb]. destruct (Nat.eqb_spec i k); subst; auto.
Qed.
Lemma set_insert_tab S n k : k < n -> set_insert (tab S n) k = Ok (tab (k :: S) n).
Proof.
  intros H. unfold set_insert. rewrite tab_length. rewrite Nat.mod_small by auto.
  change (64 + 8 * n) with (Datatypes.S (63 + 8 * n)). cbn [probe_loop].
  rewrite tab_length.
  assert (HP : forall m, probe_lin (tab S n) k k (Datatypes.S m) = if mem k S then Found else Free k).
  { intros m. cbn [probe_lin]. rewrite tab_nth by auto. destruct (mem k S); auto. rewrite Nat.eqb_refl. auto. }
  destruct (k + 9 <=? n - 1); rewrite HP; destruct (mem k S) eqn:E; cbn [bind];
    try (rewrite tab_put by auto; reflexivity).
  - f_equal. apply tab_ext. intros i _. unfold mem. cbn [existsb]. destruct (Nat.eqb_spec i k); subst; auto.
  - f_equal. apply tab_ext. intros i _. unfold mem. cbn [existsb]. destruct (Nat.eqb_spec i k); subst; auto.
Qed.
Lemma grow_ge f : forall s m, s <= grow f s m.
Proof.
  induction f; intros s m; cbn [grow]; auto. destruct (m <? s); auto.
  specialize (IHf (s * 2) m). lia.
Qed.
Lemma reinsert_tab keys : forall S n, Forall (fun k => k < n) keys ->
  reinsert keys (tab S n) = Ok (tab (rev keys ++ S) n).
Proof.
  induction keys as [|k keys IH]; intros S n HF; cbn [reinsert rev app]; auto.
  inversion HF; subst. rewrite set_insert_tab by auto. cbn [bind]. rewrite IH by auto.
  rewrite <- app_assoc. auto.
Qed.

Lemma set_add_tab S n k : 8 <= n -> k < 8 -> Forall (fun k => k < 8) S ->
  exists n', 8 <= n' /\ set_add (tab S n) k = Ok (tab (k :: S) n').
Proof.
  intros Hn Hk HS. unfold set_add. rewrite set_insert_tab by lia. cbn [bind].
  destruct (Nat.eqb _ _); [eauto|]. destruct (_ <? _); [eauto|].
  set (N := grow _ _ _). assert (HN : 8 <= N) by apply grow_ge.
  exists N. split; auto. rewrite <- tab_nil, reinsert_tab.
  - f_equal. apply tab_ext. intros i Hi. apply eq_true_iff_eq. rewrite !mem_iff, in_app_iff, <- in_rev.
    rewrite tab_elems, filter_In, in_seq. rewrite mem_iff.
    split; [intros [[_ H]|[]]; auto|]. intros H. left. split; auto.
    assert (i < 8) by (destruct H as [<-|H]; auto; rewrite Forall_forall in HS; auto). lia.
  - apply Forall_forall. intros i Hi. rewrite tab_elems, filter_In, mem_iff in Hi.
    destruct Hi as [_ [<-|Hi]]; [lia|]. rewrite Forall_forall in HS. specialize (HS i Hi). lia.
Qed.

Lemma filter_seq_ext p a k : (forall i, a <= i -> p i = false) -> forall s, s <= a ->
  filter p (seq s (a - s + k)) = filter p (seq s (a - s)).
Proof.
  intros H s Hs. rewrite seq_app, filter_app.
  replace (filter p (seq (s + (a - s)) k)) with (@nil nat); [apply app_nil_r|].
  symmetry. assert (forall b, a <= b -> filter p (seq b k) = []).
  { induction k; intros b Hb; cbn; auto. rewrite H by auto. apply IHk. lia. }
  apply H0. lia.
Qed.

Lemma set_of_tab l : forall S n, 8 <= n -> Forall (fun k => k < 8) l -> Forall (fun k => k < 8) S ->
  exists n', 8 <= n' /\ set_of l (tab S n) = Ok (tab (rev l ++ S) n').
Proof.
  induction l as [|k l IH]; intros S n Hn Hl HS; cbn [set_of rev app]; [eauto|].
  inversion Hl; subst. destruct (set_add_tab S n k) as (n1 & Hn1 & E); auto. rewrite E. cbn [bind].
  destruct (IH (k :: S) n1) as (n2 & Hn2 & E2); auto. exists n2. rewrite <- app_assoc. auto.
Qed.

Theorem list_set_ascending l N : Forall (fun k => k < 8) l -> Forall (fun k => k < N) l ->
  list_set l = Ok (filter (fun i => mem i l) (seq 0 N)).
Proof.
  intros H8 HN. unfold list_set. rewrite <- tab_nil.
  destruct (set_of_tab l [] 8 (le_n 8) H8 (Forall_nil _)) as (n & Hn & E). rewrite E. cbn [bind].
  rewrite tab_elems, app_nil_r. f_equal.
  assert (E1 : forall m, filter (fun i => mem i (rev l)) (seq 0 m) = filter (fun i => mem i l) (seq 0 m)).
  { intros m. apply filter_ext. intros i. apply eq_true_iff_eq. rewrite !mem_iff, <- in_rev. tauto. }
  rewrite E1. rewrite Forall_forall in H8, HN.
  assert (P : forall a, (forall x, In x l -> x < a) -> forall i, a <= i -> mem i l = false).
  { intros a Ha i Hi. apply not_true_iff_false. rewrite mem_iff. intros Hin. specialize (Ha i Hin). lia. }
  destruct (Nat.le_ge_cases n N) as [L|L].
  - replace N with (n - 0 + (N - n)) by lia. rewrite filter_seq_ext; try lia.
    + rewrite Nat.sub_0_r; auto.
    + apply P. intros x Hx. specialize (H8 x Hx). lia.
  - replace n with (N - 0 + (n - N)) by lia. rewrite filter_seq_ext; try lia.
    + rewrite Nat.sub_0_r; auto.
    + apply P. auto.
Qed.

(** ** C12 *)
Section Frag.
Variable C : list (list nat).
Variable listed : nat -> bool.
Let n := length C.
Let word (f : nat) : list nat := nth f C [].
Definition desc (p : nat -> bool) (s m : nat) : list nat :=
  concat (map (fun f => nth f C []) (filter p (rev (seq s m)))).
Let blocks (s m : nat) : list (bool * list nat) := map (fun f => (listed f, word f)) (rev (seq s m)).

Lemma blocks_S s m : blocks s (S m) = (listed (s + m), word (s + m)) :: blocks s m.
Proof.
  unfold blocks. replace (S m) with (m + 1) by lia. rewrite seq_app, rev_app_distr. reflexivity.
Qed.
Lemma blocks_sel s m : sel (blocks s m) = desc listed s m.
Proof.
  unfold sel, blocks, desc. induction (rev (seq s m)) as [|f l IH]; auto.
  cbn [map filter fst]. destruct (listed f); cbn [map snd concat]; rewrite IH; auto.
Qed.
Lemma blocks_unsel s m : unsel (blocks s m) = desc (fun f => negb (listed f)) s m.
Proof.
  unfold unsel, blocks, desc. induction (rev (seq s m)) as [|f l IH]; auto.
  cbn [map filter fst]. destruct (listed f); cbn [negb map snd concat]; rewrite IH; auto.
Qed.
Lemma blocks_allw s m : allw (blocks s m) = desc (fun _ => true) s m.
Proof.
  unfold allw, blocks, desc. induction (rev (seq s m)) as [|f l IH]; auto.
  cbn [map filter concat snd]. f_equal. auto.
Qed.

Let U (s g : nat) : nat := length (unsel (blocks s (g - s))).

Lemma crossings_blocks s m :
  crossings (blocks s m) =
  sumN (map (fun f => length (word f) * U s f) (filter listed (seq s m))).
Proof.
  induction m as [|m IH]; auto. rewrite blocks_S. replace (S m) with (m + 1) by lia.
  rewrite seq_app, filter_app, map_app, sumN_app, <- IH. cbn [seq filter crossings].
  destruct (listed (s + m)).
  - cbn [map]. rewrite sumN_cons. unfold U. replace (s + m - s) with m by lia. cbn. lia.
  - cbn. lia.
Qed.

Lemma U_step s l f : s <= l -> l < f -> listed l = true ->
  (forall j, l < j < f -> listed j = false) ->
  U s f = U s l + sumN (map (fun j => length (word j)) (seq (S l) (f - S l))).
Proof.
  intros Hs Hlf Hl Hno. unfold U.
  replace (f - s) with ((l - s) + (1 + (f - S l))) by lia.
  assert (G : forall k a, (forall j, a + (l - s) + s < j + s < a + (l - s) + s + 1 + k -> True) -> True) by auto.
  clear G.
  assert (E : forall a b, unsel (blocks s (a + b)) =
     desc (fun f => negb (listed f)) (s + a) b ++ unsel (blocks s a)).
  { intros a b. rewrite !blocks_unsel. unfold desc. rewrite seq_app, rev_app_distr, filter_app, map_app, concat_app. auto. }
  rewrite E, app_length. rewrite Nat.add_comm. f_equal.
  replace (s + (l - s)) with l by lia. cbn [Nat.add seq]. unfold desc. cbn [seq rev].
  rewrite filter_app. cbn [filter]. rewrite Hl. cbn [negb]. rewrite app_nil_r.
  rewrite length_concat, map_map.
  assert (F : filter (fun f0 => negb (listed f0)) (rev (seq (S l) (f - S l))) = rev (seq (S l) (f - S l))).
  { clear -Hno. set (L := rev _). assert (forall j, In j L -> l < j < f).
    { intros j Hj. apply in_rev in Hj. apply in_seq in Hj. lia. }
    induction L as [|x L IH]; auto. cbn [filter]. rewrite Hno by (apply H; left; auto). cbn [negb].
    f_equal. apply IH. intros; apply H; right; auto. }
  rewrite F, map_rev. unfold word. generalize (map (fun j => length (nth j C [])) (seq (S l) (f - S l))).
  intros L. induction L; cbn [rev]; auto. rewrite sumN_app, IHL, !sumN_cons. cbn. lia.
Qed.

Lemma mapM_pyget L : Forall (fun f => f < n) L ->
  mapM (pyget (map (@length nat) C)) L = Ok (map (fun f => length (word f)) L).
Proof.
  induction 1 as [|f L Hf H IH]; auto. cbn [mapM map].
  unfold pyget at 1. rewrite nth_error_map, (nth_error_nth' _ [] Hf). cbn [option_map bind].
  rewrite IH. reflexivity.
Qed.

Lemma filter_seq_split p s m f rest : filter p (seq s m) = f :: rest ->
  s <= f < s + m /\ p f = true /\ (forall j, s <= j < f -> p j = false) /\
  rest = filter p (seq (S f) (s + m - S f)).
Proof.
  revert s; induction m as [|m IH]; intros s H; cbn [seq filter] in H; [discriminate|].
  destruct (p s) eqn:E.
  - injection H as -> <-. split; [lia|]. split; auto. split; [lia|]. f_equal. f_equal. lia.
  - destruct (IH (S s) H) as (A & B & D & F). split; [lia|]. split; auto. split.
    + intros j Hj. destruct (Nat.eq_dec j s); subst; auto. apply D; lia.
    + rewrite F. f_equal. f_equal. lia.
Qed.

Lemma frag_loop_spec s rest : forall l np, s <= l -> l < n -> listed l = true ->
  rest = filter listed (seq (S l) (n - S l)) ->
  frag_loop (map (@length nat) C) l rest (U s l) np =
  Ok (np + sumN (map (fun f => length (word f) * U s f) rest)).
Proof.
  induction rest as [|f rest IH]; intros l np Hs Hln Hl Hr; cbn [frag_loop map].
  - rewrite Nat.add_0_r. auto.
  - symmetry in Hr. apply filter_seq_split in Hr as (A & B & D & F).
    assert (HU : (if l + 1 <? f
                    then do s0 <- sum_at (map (@length nat) C) (seq (l + 1) (f - (l + 1))) ;; Ok (U s l + s0)
                    else Ok (U s l)) = Ok (U s f)).
    { rewrite (U_step s l f) by (auto; try lia; intros; apply D; lia).
      destruct (Nat.ltb_spec (l + 1) f).
      - unfold sum_at. rewrite mapM_pyget.
        + cbn [bind]. rewrite Nat.add_1_r. auto.
        + apply Forall_forall. intros j Hj. apply in_seq in Hj. lia.
      - replace (f - S l) with 0 by lia. cbn. f_equal. lia. }
    rewrite HU. cbn [bind].
    assert (HP : (if Nat.eqb (U s f) 0 then Ok np
       else do n0 <- pyget (map (@length nat) C) f ;; Ok (np + n0 * U s f))
       = Ok (np + length (word f) * U s f)).
    { destruct (Nat.eqb_spec (U s f) 0) as [->|]; [f_equal; lia|].
      unfold pyget. rewrite nth_error_map, (nth_error_nth' C [] (n := f)) by lia. reflexivity. }
    rewrite HP. cbn [bind]. rewrite IH; auto; try lia.
    + rewrite sumN_cons. f_equal. lia.
    + rewrite F. f_equal. f_equal. lia.
Qed.
End Frag.

Lemma seq_split_at s m k : k <= m -> seq s m = seq s k ++ seq (s + k) (m - k).
Proof. intros H. replace m with (k + (m - k)) at 1 by lia. apply seq_app. Qed.

Theorem frag_shuffle_sign (C : list (list nat)) (fl : list nat) f0 :
  NoDup (desc C (fun _ => true) 0 (length C)) ->
  Forall (fun f => f < 8) fl -> Forall (fun f => f < length C) fl ->
  In f0 fl -> (forall f, In f fl -> f0 <= f) ->
  exists b, fermion_frag_shuffle (map (@length nat) C) fl = Ok b /\
    anti b (desc C (fun _ => true) 0 (length C))
           (desc C (fun f => negb (mem f fl) && (f0 <? f)) 0 (length C)
            ++ desc C (fun f => mem f fl) 0 (length C)
            ++ desc C (fun f => f <? f0) 0 (length C)).
Proof.
  intros HN H8 HC Hf0 Hmin. set (n := length C) in *. set (p := fun f => mem f fl).
  assert (L0 : f0 < n) by (rewrite Forall_forall in HC; auto).
  assert (Hp0 : p f0 = true) by (apply mem_iff; auto).
  assert (Hlow : forall j, j < f0 -> p j = false).
  { intros j Hj. apply not_true_iff_false. unfold p. rewrite mem_iff. intros H. specialize (Hmin j H). lia. }
  set (m := n - f0).
  assert (Split : forall q, desc C q 0 n = desc C q f0 m ++ desc C q 0 f0).
  { intros q. unfold desc. rewrite (seq_split_at 0 n f0) by lia.
    rewrite rev_app_distr, filter_app, map_app, concat_app. auto. }
  set (bs := map (fun f => (p f, nth f C [])) (rev (seq f0 m))).
  assert (None_low : desc C (fun f => negb (mem f fl) && (f0 <? f)) 0 f0 = []).
  { unfold desc. replace (filter _ _) with (@nil nat); auto. symmetry.
    set (L := rev _). assert (forall j, In j L -> j < f0) by (intros j Hj; apply in_rev, in_seq in Hj; lia).
    induction L as [|x L IH]; auto. cbn [filter]. 
    replace (f0 <? x) with false by (symmetry; apply Nat.ltb_ge; specialize (H x (or_introl eq_refl)); lia).
    rewrite andb_false_r. apply IH. intros; apply H; right; auto. }
  assert (P_low : desc C p 0 f0 = []).
  { unfold desc. replace (filter _ _) with (@nil nat); auto. symmetry.
    set (L := rev _). assert (forall j, In j L -> j < f0) by (intros j Hj; apply in_rev, in_seq in Hj; lia).
    induction L as [|x L IH]; auto. cbn [filter]. rewrite Hlow by (apply H; left; auto).
    apply IH. intros; apply H; right; auto. }
  assert (U_hi : desc C (fun f => negb (mem f fl) && (f0 <? f)) f0 m = desc C (fun f => negb (p f)) f0 m).
  { unfold desc. f_equal. f_equal. apply filter_ext_in. intros j Hj. apply in_rev, in_seq in Hj.
    unfold p. destruct (Nat.eq_dec j f0) as [->|]; [unfold p in Hp0; rewrite Hp0; auto|].
    replace (f0 <? j) with true by (symmetry; apply Nat.ltb_lt; lia). apply andb_true_r. }
  assert (L_hi : desc C (fun f => f <? f0) f0 m = []).
  { unfold desc. replace (filter _ _) with (@nil nat); auto. symmetry.
    set (L := rev _). assert (forall j, In j L -> f0 <= j) by (intros j Hj; apply in_rev, in_seq in Hj; lia).
    induction L as [|x L IH]; auto. cbn [filter].
    replace (x <? f0) with false by (symmetry; apply Nat.ltb_ge; apply H; left; auto).
    apply IH. intros; apply H; right; auto. }
  assert (L_lo : desc C (fun f => f <? f0) 0 f0 = desc C (fun _ => true) 0 f0).
  { unfold desc. f_equal. f_equal. apply filter_ext_in. intros j Hj. apply in_rev, in_seq in Hj.
    apply Nat.ltb_lt. lia. }
  exists (Nat.odd (crossings bs)). split.
  - unfold fermion_frag_shuffle. rewrite (list_set_ascending fl n) by auto. cbn [bind].
    change (fun i => mem i fl) with p. rewrite (seq_split_at 0 n f0), filter_app by lia.
    replace (filter p (seq 0 f0)) with (@nil nat).
    2:{ symmetry. set (L := seq 0 f0). assert (forall j, In j L -> j < f0) by (intros j Hj; apply in_seq in Hj; lia).
        induction L as [|x L IH]; auto. cbn [filter].
        rewrite Hlow by (apply H; left; auto).
        apply IH. intros; apply H; right; auto. }
    cbn [app Nat.add]. fold m. replace m with (S (m - 1)) by lia. cbn [seq filter].
    rewrite Hp0.
    pose proof (frag_loop_spec C p f0 (filter p (seq (S f0) (n - S f0))) f0 0 (le_n f0) L0 Hp0 eq_refl) as E.
    cbv beta zeta in E. fold n in E. replace (m - 1) with (n - S f0) by lia.
    rewrite Nat.sub_diag in E.
    change (length (unsel (map (fun f : nat => (p f, nth f C [])) (rev (seq f0 0))))) with 0 in E.
    rewrite E. cbn [bind]. f_equal. unfold sign. f_equal.
    unfold bs. pose proof (crossings_blocks C p f0 m) as EC. cbv beta zeta in EC. rewrite EC.
    replace m with (S (n - S f0)) by lia. cbn [seq filter]. rewrite Hp0. cbn [map]. rewrite sumN_cons.
    replace (f0 - f0) with 0 by lia. cbn [seq rev map unsel filter concat length]. rewrite Nat.mul_0_r. reflexivity.
  - rewrite !Split, None_low, U_hi, P_low, L_hi, L_lo, !app_nil_r. cbn [app].
    pose proof (anti_partition bs) as HA.
    unfold bs in HA at 1 3. rewrite blocks_allw in HA.
    unfold bs in HA at 2 3. rewrite blocks_unsel, blocks_sel in HA.
    assert (HN' : NoDup (desc C (fun _ => true) f0 m)).
    { rewrite Split in HN. clear -HN. induction (desc C (fun _ => true) f0 m); constructor; inversion HN; subst; auto.
      intros H. apply H1. apply in_or_app; auto. }
    specialize (HA HN').
    pose proof (anti_ctx _ _ _ [] (desc C (fun _ => true) 0 f0) HA) as H.
    cbn [app] in H. rewrite <- app_assoc in H. exact H.
Qed.

(** ** C13 *)
Theorem des_shuffle_sign (C : list (list nat)) (fl : list nat) (i c : nat) :
  ~ In c (desc C (fun f => mem f fl) 0 (length C)) ->
  Forall (fun f => f < 8) fl -> Forall (fun f => f < length C) fl -> In i fl ->
  exists b, fermion_des_shuffle (map (@length nat) C) fl i = Ok b /\
    anti b (c :: desc C (fun f => mem f fl) 0 (length C))
           (desc C (fun f => mem f fl && (i <? f)) 0 (length C)
            ++ c :: desc C (fun f => mem f fl && (f <=? i)) 0 (length C)).
Proof.
  intros Hc H8 HC Hi. set (n := length C) in *.
  assert (Li : i < n) by (rewrite Forall_forall in HC; auto).
  unfold fermion_des_shuffle. replace (existsb (Nat.eqb i) fl) with true
    by (symmetry; apply existsb_exists; exists i; split; auto; apply Nat.eqb_refl).
  cbn [py_assert]. rewrite (list_set_ascending fl n) by auto. cbn [bind].
  set (p := fun f => mem f fl).
  set (L := rev (filter p (seq 0 n))).
  assert (HL : Forall (fun f => f < n) L).
  { apply Forall_forall. intros f Hf. apply in_rev, filter_In in Hf as [Hf _]. apply in_seq in Hf. lia. }
  rewrite (mapM_pyget C L HL). cbn [bind].
  (* L = high ++ i :: low *)
  assert (EL : L = rev (filter p (seq (S i) (n - S i))) ++ i :: rev (filter p (seq 0 i))).
  { unfold L. rewrite (seq_split_at 0 n i) by lia. rewrite filter_app, rev_app_distr.
    replace (n - i) with (S (n - S i)) by lia. cbn [Nat.add seq filter].
    assert (Ep : p i = true) by (apply mem_iff; auto). rewrite Ep. cbn [rev]. rewrite <- app_assoc. auto. }
  set (hi := rev (filter p (seq (S i) (n - S i)))) in *.
  set (lo := rev (filter p (seq 0 i))) in *.
  assert (Nhi : ~ In i hi).
  { unfold hi. rewrite <- in_rev, filter_In, in_seq. lia. }
  assert (Ek : index_of i L = Some (length hi)).
  { rewrite EL. clear -Nhi. induction hi as [|x hi IH]; cbn.
    - rewrite Nat.eqb_refl. auto.
    - cbn in Nhi. destruct (Nat.eqb_spec i x); [subst; tauto|]. rewrite IH by tauto. auto. }
  rewrite Ek. eexists. split; [reflexivity|].
  set (w := fun f => nth f C []).
  assert (D1 : desc C p 0 n = concat (map w L)).
  { unfold desc, L. f_equal. f_equal. clear. induction (seq 0 n) as [|x l IH]; auto.
    cbn [rev filter]. rewrite filter_app. rewrite IH. cbn [filter]. destruct (p x); cbn [rev]; auto. apply app_nil_r. }
  assert (frev : forall (q : nat -> bool) l, filter q (rev l) = rev (filter q l)).
  { clear. intros q l. induction l as [|x l IH]; auto. cbn [rev filter]. rewrite filter_app, IH. cbn [filter].
    destruct (q x); cbn [rev]; auto. apply app_nil_r. }
  assert (D2 : desc C (fun f => mem f fl && (i <? f)) 0 n = concat (map w hi)).
  { unfold desc, hi. f_equal. f_equal. rewrite frev. f_equal. rewrite (seq_split_at 0 n (S i)) by lia.
    rewrite filter_app. replace (filter _ (seq 0 (S i))) with (@nil nat).
    - cbn [app Nat.add]. apply filter_ext_in. intros j Hj. apply in_seq in Hj.
      replace (i <? j) with true by (symmetry; apply Nat.ltb_lt; lia). apply andb_true_r.
    - symmetry. rewrite <- (filter_ext_in (fun _ => false)).
      + clear. induction (seq 0 (S i)); auto.
      + intros j Hj. apply in_seq in Hj. replace (i <? j) with false by (symmetry; apply Nat.ltb_ge; lia).
        rewrite andb_false_r; auto. }
  assert (D3 : desc C (fun f => mem f fl && (f <=? i)) 0 n = concat (map w (i :: lo))).
  { unfold desc. f_equal. f_equal. rewrite frev. rewrite (seq_split_at 0 n (S i)) by lia.
    rewrite filter_app. replace (filter _ (seq (0 + S i) _)) with (@nil nat).
    - rewrite app_nil_r. change (i :: lo) with ([i] ++ rev (filter p (seq 0 i))).
      replace (seq 0 (S i)) with (seq 0 i ++ [i]) by (rewrite seq_S; auto).
      rewrite filter_app, rev_app_distr. f_equal.
      + cbn [filter]. replace (mem i fl) with true by (symmetry; apply mem_iff; auto).
        rewrite Nat.leb_refl. reflexivity.
      + f_equal. apply filter_ext_in. intros j Hj. apply in_seq in Hj.
        replace (j <=? i) with true by (symmetry; apply Nat.leb_le; lia). apply andb_true_r.
    - symmetry. rewrite <- (filter_ext_in (fun _ => false)).
      + clear. induction (seq _ _); auto.
      + intros j Hj. apply in_seq in Hj. replace (j <=? i) with false by (symmetry; apply Nat.leb_gt; lia).
        rewrite andb_false_r; auto. }
  change (desc C (fun f => mem f fl) 0 n) with (desc C p 0 n) in *.
  rewrite D1, EL, map_app, concat_app in Hc. rewrite D1, D2, D3.
  rewrite EL at 2. rewrite map_app, concat_app.
  rewrite EL, map_app, firstn_app, map_length, Nat.sub_diag, firstn_all2 by (rewrite map_length; auto).
  cbn [firstn]. rewrite app_nil_r.
  pose proof (anti_one c (concat (map w hi))) as HA.
  assert (~ In c (concat (map w hi))) as Hn by (intros H; apply Hc; apply in_or_app; auto).
  specialize (HA Hn).
  pose proof (anti_ctx _ _ _ [] (concat (map w (i :: lo))) HA) as H. cbn [app] in H.
  rewrite <- app_assoc in H. cbn [app] in H. unfold sign.
  rewrite length_concat, map_map in H. exact H.
Qed.
