(** Lemmas about the addressing model. *)
From Coq Require Import List ZArith Lia Bool Arith.
From Verif Require Import Base BaseFacts AddrModel.
Import ListNotations.
Local Open Scope nat_scope.

(** ** lists *)
Lemma nth_error_nth_some {A} (l : list A) k d : k < length l -> nth_error l k = Some (nth k l d).
Proof.
  revert k; induction l; intros [|k] H; cbn in *; try lia; auto. apply IHl; lia.
Qed.

Lemma prodN_app l1 l2 : prodN (l1 ++ l2) = prodN l1 * prodN l2.
Proof. induction l1; cbn; lia. Qed.

Lemma sum_nat_app l1 l2 : sum_nat (l1 ++ l2) = sum_nat l1 + sum_nat l2.
Proof. induction l1; cbn; lia. Qed.

Lemma prodN_split l f : f < length l ->
  prodN l = prodN (firstn f l) * (nth f l 0 * prodN (skipn (S f) l)).
Proof.
  intros H. rewrite <- (firstn_skipn f l) at 1. rewrite prodN_app. f_equal.
  revert f H; induction l; intros [|f] H; cbn in *; try lia; auto.
  apply IHl; lia.
Qed.

Lemma np_repeat_length l k : length (np_repeat l k) = length l * k.
Proof. unfold np_repeat; induction l; cbn; auto. rewrite app_length, repeat_length, IHl; auto. Qed.

Lemma np_tile_length l k : length (np_tile l k) = k * length l.
Proof. induction k; cbn; auto. rewrite app_length, IHk; auto. Qed.

Lemma nth_error_np_repeat l p k : k < length l * p ->
  nth_error (np_repeat l p) k = nth_error l (k / p).
Proof.
  unfold np_repeat. revert k; induction l as [|x l IH]; intros k H; cbn in *; [lia|].
  destruct (le_lt_dec p k) as [Hk|Hk].
  - rewrite nth_error_app2; rewrite repeat_length; auto.
    rewrite IH by lia.
    assert (Hp : p <> 0) by (destruct p; lia).
    assert (E : k / p = S ((k - p) / p)).
    { replace k with ((k - p) + 1 * p) at 1 by lia. rewrite Nat.div_add by auto. lia. }
    rewrite E; auto.
  - rewrite nth_error_app1 by (rewrite repeat_length; auto).
    rewrite Nat.div_small by auto. cbn [nth_error]. apply nth_error_repeat; auto.
Qed.

Lemma nth_error_np_tile l n k : k < n * length l ->
  nth_error (np_tile l n) k = nth_error l (k mod length l).
Proof.
  revert k; induction n as [|n IH]; intros k H; cbn in *; [lia|].
  destruct (le_lt_dec (length l) k) as [Hk|Hk].
  - rewrite nth_error_app2 by auto. rewrite IH by lia.
    assert (Hp : length l <> 0) by (destruct (length l); lia).
    replace k with ((k - length l) + 1 * length l) at 2 by lia.
    rewrite Nat.mod_add by auto; auto.
  - rewrite nth_error_app1 by auto. rewrite Nat.mod_small; auto.
Qed.

(** ** frag_addrs is a digit of the mixed-radix expansion *)
Lemma frag_addrs_length col f : f < length col -> length (frag_addrs col f) = prodN col.
Proof.
  intros H. unfold frag_addrs. rewrite np_tile_length, np_repeat_length. unfold arange.
  rewrite seq_length, (prodN_split col f H). lia.
Qed.

Lemma frag_addrs_nth col f k : f < length col -> k < prodN col ->
  nth_error (frag_addrs col f) k = Some ((k / prodN (firstn f col)) mod nth f col 0).
Proof.
  intros H Hk. pose proof (prodN_split col f H) as E.
  unfold frag_addrs. set (b := prodN (firstn f col)) in *. set (a := prodN (skipn (S f) col)) in *.
  set (d := nth f col 0) in *.
  assert (b <> 0) by (intros ->; lia). assert (d <> 0) by (intros ->; lia).
  assert (a <> 0) by (intros ->; lia).
  assert (L : length (np_repeat (arange d) b) = d * b)
    by (rewrite np_repeat_length; unfold arange; rewrite seq_length; auto).
  rewrite nth_error_np_tile by (rewrite L; nia). rewrite L.
  assert (Hm : k mod (d * b) < d * b) by (apply Nat.mod_upper_bound; nia).
  rewrite nth_error_np_repeat by (unfold arange; rewrite seq_length; auto).
  unfold arange. rewrite nth_error_nth_some with (d := 0).
  - f_equal. rewrite seq_nth.
    + cbn. rewrite (Nat.mul_comm d b), Nat.mod_mul_r by auto.
      rewrite (Nat.mul_comm b), Nat.div_add by auto.
      rewrite Nat.div_small by (apply Nat.mod_upper_bound; auto). auto.
    + apply Nat.div_lt_upper_bound; auto. nia.
  - rewrite seq_length. apply Nat.div_lt_upper_bound; auto. nia.
Qed.

(** ** slices *)
Lemma set_slice_exact arr i j vals :
  i <= j -> j <= length arr -> length vals = j - i ->
  set_slice arr i j vals = Ok (firstn i arr ++ vals ++ skipn j arr).
Proof.
  intros H1 H2 H3. unfold set_slice. rewrite (Nat.min_l j) by lia. rewrite (Nat.min_l i) by lia.
  rewrite H3, Nat.eqb_refl. auto.
Qed.

Lemma fill_slice_exact arr i j v :
  i <= j -> j <= length arr -> fill_slice arr i j v = firstn i arr ++ repeat v (j - i) ++ skipn j arr.
Proof.
  intros H1 H2. unfold fill_slice. rewrite (Nat.min_l j) by lia. rewrite (Nat.min_l i) by lia. auto.
Qed.

Lemma splice_length {A} (arr vals : list A) i j : i <= j -> j <= length arr -> length vals = j - i ->
  length (firstn i arr ++ vals ++ skipn j arr) = length arr.
Proof. intros. rewrite !app_length, firstn_length, skipn_length. lia. Qed.

Lemma nth_error_splice {A} (arr vals : list A) i j k :
  i <= j -> j <= length arr -> length vals = j - i ->
  nth_error (firstn i arr ++ vals ++ skipn j arr) k =
  if (i <=? k) && (k <? j) then nth_error vals (k - i) else nth_error arr k.
Proof.
  intros H1 H2 H3. assert (Hf : length (firstn i arr) = i) by (rewrite firstn_length; lia).
  destruct (Nat.leb_spec i k) as [A1|A1]; cbn [andb].
  - rewrite nth_error_app2 by lia. rewrite Hf.
    destruct (Nat.ltb_spec k j).
    + rewrite nth_error_app1 by lia; auto.
    + rewrite nth_error_app2 by lia.
      rewrite <- (firstn_skipn j arr) at 2. rewrite nth_error_app2 by (rewrite firstn_length; lia).
      f_equal. rewrite firstn_length. lia.
  - rewrite nth_error_app1 by lia.
    rewrite <- (firstn_skipn i arr) at 2. rewrite nth_error_app1 by lia. auto.
Qed.

(** ** cumulative sums *)
Lemma cumsum_from_length acc l : length (cumsum_from acc l) = length l.
Proof. revert acc; induction l; intros; cbn; auto. Qed.

Lemma nth_cumsum_from l : forall acc k, k < length l ->
  nth k (cumsum_from acc l) 0 = acc + sum_nat (firstn (S k) l).
Proof.
  induction l as [|x l IH]; intros acc k H; cbn [length] in *; [lia|].
  destruct k as [|k].
  - cbn. lia.
  - cbn [cumsum_from nth]. rewrite IH by lia. cbn [firstn sum_nat]. lia.
Qed.

Lemma sum_firstn_S l k : k < length l -> sum_nat (firstn (S k) l) = sum_nat (firstn k l) + nth k l 0.
Proof.
  revert k; induction l as [|x l IH]; intros k H; cbn [length] in *; [lia|].
  destruct k; cbn [firstn sum_nat nth]; [lia|]. specialize (IH k ltac:(lia)).
  cbn [firstn] in IH. lia.
Qed.

Lemma sum_firstn_le l a b : a <= b -> sum_nat (firstn a l) <= sum_nat (firstn b l).
Proof.
  revert a b; induction l as [|x l IH]; intros [|a] [|b] H; cbn; try lia.
  specialize (IH a b ltac:(lia)). lia.
Qed.

Lemma offs0_length l : length (offs0 l) = length l.
Proof. unfold offs0, cumsum. rewrite map_length, combine_length, cumsum_from_length. lia. Qed.

Lemma nth_offs0 l k : k < length l -> nth k (offs0 l) 0 = sum_nat (firstn k l).
Proof.
  intros H. unfold offs0.
  rewrite (nth_indep _ 0 ((fun p => fst p - snd p) (0,0)))
    by (rewrite map_length, combine_length; unfold cumsum; rewrite cumsum_from_length; lia).
  rewrite (map_nth (fun p => fst p - snd p)).
  unfold cumsum. rewrite combine_nth by apply cumsum_from_length. cbn [fst snd].
  rewrite nth_cumsum_from by auto. rewrite sum_firstn_S by auto. lia.
Qed.

(** ** get_rootaddr_fragaddr *)
Section Fill.
Variable lroots : list (list nat).
Let nfrags := length lroots.

Lemma column_length r : length (column lroots r) = nfrags.
Proof. unfold column. apply map_length. Qed.

(** the inner loop fills the slice of every row *)
Lemma fill_frags_spec col i j n : forall rows ifrag,
  j = i + prodN col -> j <= n ->
  (forall row, In row rows -> length row = n) ->
  ifrag + length rows = length col ->
  exists rows', fill_frags col i j ifrag rows = Ok rows' /\
    length rows' = length rows /\
    (forall row, In row rows' -> length row = n) /\
    (forall f k row row', nth_error rows f = Some row -> nth_error rows' f = Some row' ->
       nth_error row' k = if (i <=? k) && (k <? j)
                          then nth_error (frag_addrs col (ifrag + f)) (k - i)
                          else nth_error row k).
Proof.
  induction rows as [|row rows IH]; intros ifrag Hj Hn Hlen Hc; cbn [fill_frags].
  - exists []. repeat split; cbn; auto; try tauto. intros [|f] k ? ? H; discriminate.
  - cbn [length] in Hc.
    assert (Hl : length row = n) by (apply Hlen; left; auto).
    assert (Hv : length (frag_addrs col ifrag) = j - i) by (rewrite frag_addrs_length; lia).
    rewrite set_slice_exact by lia. cbn [bind].
    destruct (IH (S ifrag) Hj Hn) as (rows' & E & L & Hr & Hk); [intros; apply Hlen; right; auto|lia|].
    rewrite E. cbn [bind]. eexists; split; [reflexivity|]. split; [cbn; lia|]. split.
    + intros r [<-|Hin]; auto. rewrite splice_length; lia.
    + intros [|f] k r0 r1 H0 H1; cbn [nth_error] in H0, H1.
      * injection H0 as <-. injection H1 as <-. rewrite nth_error_splice by lia.
        rewrite Nat.add_0_r. auto.
      * specialize (Hk f k r0 r1 H0 H1). replace (ifrag + S f) with (S ifrag + f) by lia. auto.
Qed.

Variable nroots : nat.
Let nprods := map (fun iroot => prodN (column lroots iroot)) (seq 0 nroots).
Let off k := sum_nat (firstn k nprods).

Lemma nprods_nth r : r < nroots -> nth r nprods 0 = prodN (column lroots r).
Proof.
  intros H. unfold nprods.
  rewrite (nth_indep _ 0 ((fun iroot => prodN (column lroots iroot)) 0))
    by (rewrite map_length, seq_length; auto).
  rewrite (map_nth (fun iroot => prodN (column lroots iroot))), seq_nth; auto.
Qed.

Lemma nprods_len : length nprods = nroots.
Proof. unfold nprods. rewrite map_length, seq_length; auto. Qed.

Lemma fill_roots_spec n : forall todo iroot ra fa,
  iroot + todo = nroots ->
  n = off nroots ->
  length ra = n -> length fa = nfrags ->
  (forall row, In row fa -> length row = n) ->
  exists ra' fa', fill_roots lroots nprods (cumsum nprods) iroot todo ra fa = Ok (ra', fa') /\
    length ra' = n /\ length fa' = nfrags /\ (forall row, In row fa' -> length row = n) /\
    (forall k, k < off iroot -> nth_error ra' k = nth_error ra k /\
       forall f row row', nth_error fa f = Some row -> nth_error fa' f = Some row' ->
         nth_error row' k = nth_error row k) /\
    (forall r x, iroot <= r < nroots -> x < prodN (column lroots r) ->
       nth_error ra' (off r + x) = Some r /\
       forall f row', nth_error fa' f = Some row' ->
         nth_error row' (off r + x) = nth_error (frag_addrs (column lroots r) f) x).
Proof.
  induction todo as [|todo IH]; intros iroot ra fa Hi Hn Hra Hfa Hrow; cbn [fill_roots].
  - exists ra, fa. repeat split; auto; try lia.
    intros; congruence.
  - assert (Hir : iroot < nroots) by lia.
    assert (Hlt : iroot < length nprods) by (rewrite nprods_len; auto).
    assert (Ej : nth iroot (cumsum nprods) 0 = off (S iroot))
      by (unfold cumsum; rewrite nth_cumsum_from by auto; reflexivity).
    assert (Ep : off (S iroot) = off iroot + prodN (column lroots iroot))
      by (unfold off; rewrite sum_firstn_S by auto; rewrite nprods_nth; auto).
    assert (Ei : nth iroot (cumsum nprods) 0 - nth iroot nprods 0 = off iroot)
      by (rewrite Ej, nprods_nth by auto; lia).
    assert (Hle : off (S iroot) <= n) by (subst n; apply sum_firstn_le; lia).
    rewrite Ei, Ej.
    destruct (fill_frags_spec (column lroots iroot) (off iroot) (off (S iroot)) n fa 0 Ep Hle Hrow)
      as (fa1 & E1 & L1 & R1 & K1); [rewrite column_length; lia|].
    rewrite E1. cbn [bind]. rewrite fill_slice_exact by lia.
    assert (Hrep : length (repeat iroot (off (S iroot) - off iroot)) = off (S iroot) - off iroot)
      by apply repeat_length.
    destruct (IH (S iroot) (firstn (off iroot) ra ++ repeat iroot (off (S iroot) - off iroot)
                              ++ skipn (off (S iroot)) ra) fa1)
      as (ra' & fa' & E2 & Lr & Lf & R2 & Kold & Knew);
      [lia|auto|rewrite splice_length; lia|lia|auto|].
    exists ra', fa'. rewrite E2. split; [auto|]. repeat split; auto.
    + rewrite (proj1 (Kold k ltac:(lia))). rewrite nth_error_splice by lia.
      destruct (Nat.leb_spec (off iroot) k); [lia|]. auto.
    + intros f row row' H0 H1.
      assert (exists row1, nth_error fa1 f = Some row1) as [row1 Hr1].
      { destruct (nth_error fa1 f) eqn:E; eauto. apply nth_error_None in E.
        assert (f < length fa) by (apply nth_error_Some; congruence). lia. }
      rewrite (proj2 (Kold k ltac:(lia)) f row1 row' Hr1 H1).
      rewrite (K1 f k row row1 H0 Hr1). destruct (Nat.leb_spec (off iroot) k); [lia|]. auto.
    + destruct (Nat.eq_dec r iroot) as [->|Hne].
      * rewrite (proj1 (Kold (off iroot + x) ltac:(lia))). rewrite nth_error_splice by lia.
        destruct (Nat.leb_spec (off iroot) (off iroot + x)); [|lia].
        destruct (Nat.ltb_spec (off iroot + x) (off (S iroot))); [|lia]. cbn [andb].
        apply nth_error_repeat. lia.
      * exact (proj1 (Knew r x ltac:(lia) H0)).
    + intros f row' H1.
      destruct (Nat.eq_dec r iroot) as [->|Hne].
      * assert (exists row1, nth_error fa1 f = Some row1) as [row1 Hr1].
        { destruct (nth_error fa1 f) eqn:E; eauto. apply nth_error_None in E.
          assert (f < length fa') by (apply nth_error_Some; congruence). lia. }
        assert (exists row, nth_error fa f = Some row) as [row Hr].
        { destruct (nth_error fa f) eqn:E; eauto. apply nth_error_None in E.
          assert (f < length fa') by (apply nth_error_Some; congruence). lia. }
        rewrite (proj2 (Kold (off iroot + x) ltac:(lia)) f row1 row' Hr1 H1).
        rewrite (K1 f _ row row1 Hr Hr1).
        destruct (Nat.leb_spec (off iroot) (off iroot + x)); [|lia].
        destruct (Nat.ltb_spec (off iroot + x) (off (S iroot))); [|lia]. cbn [andb].
        replace (off iroot + x - off iroot) with x by lia. auto.
      * exact (proj2 (Knew r x ltac:(lia) H0) f row' H1).
Qed.
End Fill.
