(** Facts about the packing of LASSIS variables. *)
From Coq Require Import List Arith ZArith Bool Lia Ring.
From Verif Require Import Base Star UggModel UggProofs LsisModel.
Import ListNotations.

(** ** lists *)
Lemma nth_skip {A} (d : A) b : forall y j, nth j (skipn b y) d = nth (b + j) y d.
Proof.
  induction b as [|b IH]; intros y j; cbn [skipn Nat.add]; [reflexivity|].
  destruct y as [|a y]; [destruct j; reflexivity | apply IH].
Qed.
Lemma map_nth_seq {A} (d : A) c : forall y, c <= length y -> map (fun j => nth j y d) (seq 0 c) = firstn c y.
Proof.
  induction c as [|c IH]; intros [|a y] H; cbn [length] in H; try lia; try reflexivity.
  cbn [seq map firstn]. f_equal. rewrite <- seq_shift, map_map. apply IH. lia.
Qed.
Lemma skipn_skipn' {A} a : forall b (y : list A), skipn a (skipn b y) = skipn (b + a) y.
Proof.
  intros b. induction b as [|b IH]; intros y; cbn [skipn Nat.add]; [reflexivity|].
  destruct y; [apply skipn_nil | apply IH].
Qed.
Lemma firstn_plus {A} a : forall b (y : list A), firstn (a + b) y = firstn a y ++ firstn b (skipn a y).
Proof.
  induction a as [|a IH]; intros b y; cbn [Nat.add firstn skipn app]; [reflexivity|].
  destruct y; [now rewrite firstn_nil | cbn [app]; now rewrite IH].
Qed.
Lemma flat_const {A B} (f : A -> list B) c l : (forall a, In a l -> length (f a) = c) -> length (flat_map f l) = length l * c.
Proof.
  induction l as [|a l IH]; intros H; cbn [flat_map length]; [reflexivity|].
  rewrite app_length, IH, H; [lia | now left | intros b I; apply H; now right].
Qed.
Lemma flat_nth {A B} (d : B) (f : A -> list B) c : forall l r j a, (forall a, In a l -> length (f a) = c) -> j < c ->
  nth_error l r = Some a -> nth (r * c + j) (flat_map f l) d = nth j (f a) d.
Proof.
  induction l as [|b l IH]; intros r j a H J E; [destruct r; discriminate|]. cbn [flat_map].
  assert (Lb : length (f b) = c) by (apply H; now left).
  destruct r as [|r]; cbn [nth_error] in E.
  - injection E as ->. cbn [Nat.mul Nat.add]. rewrite app_nth1; [reflexivity | lia].
  - rewrite app_nth2 by (rewrite Lb; cbn [Nat.mul]; lia). rewrite Lb.
    replace (S r * c + j - c) with (r * c + j) by (cbn [Nat.mul]; lia). apply IH; auto. intros x I. apply H. now right.
Qed.

Lemma tril_S n : tril (S n) = tril n ++ map (fun s => (n, s)) (seq 0 n).
Proof. unfold tril. rewrite seq_S, flat_map_app. cbn [flat_map]. now rewrite app_nil_r. Qed.
Lemma half_S n : S n * (S n - 1) / 2 = n * (n - 1) / 2 + n.
Proof.
  replace (S n * (S n - 1)) with (n * (n - 1) + n * 2).
  - apply Nat.div_add. lia.
  - destruct n as [|n]; [reflexivity|]. cbn [Nat.sub]. rewrite !Nat.sub_0_r. nia.
Qed.
Lemma tril_length n : length (tril n) = n * (n - 1) / 2.
Proof.
  induction n as [|n IH]; [reflexivity|]. rewrite tril_S, app_length, map_length, seq_length, IH, half_S. reflexivity.
Qed.
Lemma tril_in n r s : In (r, s) (tril n) <-> s < r < n.
Proof.
  unfold tril. rewrite in_flat_map. split.
  - intros (r' & I & J). apply in_map_iff in J. destruct J as (s' & E & J). injection E as -> ->.
    apply in_seq in I, J. lia.
  - intros H. exists r. split; [apply in_seq; lia|]. apply in_map_iff. exists s. split; [reflexivity|]. apply in_seq. lia.
Qed.
Lemma tril_read {A} (d : A) n : forall y, n * (n - 1) / 2 <= length y ->
  map (fun rs => nth (tril_index (fst rs) (snd rs)) y d) (tril n) = firstn (n * (n - 1) / 2) y.
Proof.
  induction n as [|n IH]; intros y H; [reflexivity|]. rewrite half_S in *. rewrite tril_S, map_app, IH by lia.
  rewrite firstn_plus. f_equal. rewrite map_map. cbn [fst snd]. unfold tril_index.
  rewrite <- (map_nth_seq d n (skipn (n * (n - 1) / 2) y)) by (rewrite skipn_length; lia).
  apply map_ext. intros j. now rewrite nth_skip.
Qed.
Lemma tril_write {A} (d : A) (f : nat -> nat -> A) n r s : s < r < n ->
  nth (tril_index r s) (map (fun rs => f (fst rs) (snd rs)) (tril n)) d = f r s.
Proof.
  induction n as [|n IH]; intros H; [lia|]. rewrite tril_S, map_app. unfold tril_index in *.
  destruct (Nat.eq_dec r n) as [->|N].
  - rewrite app_nth2; rewrite map_length, tril_length; [|lia].
    replace (n * (n - 1) / 2 + s - n * (n - 1) / 2) with s by lia. rewrite map_map. cbn [fst snd].
    rewrite (nth_indep _ d (f n 0)) by (rewrite map_length, seq_length; lia).
    rewrite (map_nth (f n)). rewrite seq_nth by lia. reflexivity.
  - rewrite app_nth1; [apply IH; lia|]. rewrite map_length, tril_length.
    assert (M : r * (r - 1) / 2 + r <= n * (n - 1) / 2).
    { clear IH. assert (HH : r < n) by lia. clear -HH. induction n as [|n IHn]; [lia|]. rewrite half_S.
      destruct (Nat.eq_dec r n) as [->|N]; [lia|]. specialize (IHn ltac:(lia)). lia. }
    lia.
Qed.

(** ** keys *)
Lemma nodup_flat_map {A B} (f : A -> list B) l : NoDup l -> (forall a, In a l -> NoDup (f a)) ->
  (forall a a' b, In b (f a) -> In b (f a') -> a = a') -> NoDup (flat_map f l).
Proof.
  induction 1 as [|a l Na ND IH]; intros H1 H2; cbn [flat_map]; [constructor|].
  assert (D : forall b, In b (f a) -> ~ In b (flat_map f l)).
  { intros b I J. apply in_flat_map in J. destruct J as (a' & I' & J). rewrite <- (H2 a a' b I J) in I'. contradiction. }
  assert (N1 : NoDup (f a)) by (apply H1; now left).
  assert (N2 : NoDup (flat_map f l)) by (apply IH; [intros; apply H1; now right | exact H2]).
  clear -D N1 N2. induction (f a) as [|b m IHm]; cbn [app]; [exact N2|]. inversion N1; subst. constructor.
  - rewrite in_app_iff. intros [C|C]; [contradiction | exact (D b (or_introl eq_refl) C)].
  - apply IHm; auto. intros c I. apply D. now right.
Qed.
Lemma nodup_map_inj {A B} (f : A -> B) l : (forall a a', f a = f a' -> a = a') -> NoDup l -> NoDup (map f l).
Proof.
  intros H. induction 1 as [|a l Na ND IH]; cbn; constructor; auto.
  intros C. apply in_map_iff in C. destruct C as (b & E & I). apply H in E. now subst.
Qed.
Lemma nodup_app {A} (l m : list A) : NoDup l -> NoDup m -> (forall a, In a l -> ~ In a m) -> NoDup (l ++ m).
Proof.
  induction 1 as [|a l Na ND IH]; intros Hm D; cbn [app]; [exact Hm|]. constructor.
  - rewrite in_app_iff. intros [C|C]; [contradiction | exact (D a (or_introl eq_refl) C)].
  - apply IH; auto. intros b I. apply D. now right.
Qed.
Lemma keys_nodup n : NoDup (keys n).
Proof.
  unfold keys. apply nodup_app; [|apply nodup_app|].
  - apply nodup_map_inj; [now intros a b E; injection E | apply seq_NoDup].
  - apply nodup_flat_map; [apply seq_NoDup | intros; apply nodup_map_inj; [now intros b c E; injection E | apply seq_NoDup] |].
    intros a a' b I J. apply in_map_iff in I, J. destruct I as (? & <- & _), J as (? & E & _). now injection E.
  - apply nodup_flat_map; [apply seq_NoDup| |].
    + intros i _. apply nodup_flat_map; [apply seq_NoDup| |].
      * intros a _. apply nodup_flat_map; [apply seq_NoDup | intros; apply nodup_map_inj; [now intros b c E; injection E | apply seq_NoDup] |].
        intros s s' b I J. apply in_map_iff in I, J. destruct I as (? & <- & _), J as (? & E & _). now injection E.
      * intros a a' b I J. apply in_flat_map in I, J. destruct I as (s & _ & I), J as (s' & _ & J).
        apply in_map_iff in I, J. destruct I as (? & <- & _), J as (? & E & _). now injection E.
    + intros i i' b I J. apply in_flat_map in I, J. destruct I as (a & _ & I), J as (a' & _ & J).
      apply in_flat_map in I, J. destruct I as (s & _ & I), J as (s' & _ & J).
      apply in_map_iff in I, J. destruct I as (? & <- & _), J as (? & E & _). now injection E.
  - intros k I J. apply in_flat_map in I. destruct I as (i & _ & I). apply in_map_iff in I. destruct I as (s & <- & _).
    apply in_flat_map in J. destruct J as (i' & _ & J). apply in_flat_map in J. destruct J as (a & _ & J).
    apply in_flat_map in J. destruct J as (s' & _ & J). apply in_map_iff in J. destruct J as (p & E & _). discriminate.
  - intros k I J. apply in_map_iff in I. destruct I as (i & <- & _). apply in_app_iff in J. destruct J as [J|J].
    + apply in_flat_map in J. destruct J as (i' & _ & J). apply in_map_iff in J. destruct J as (p & E & _). discriminate.
    + apply in_flat_map in J. destruct J as (i' & _ & J). apply in_flat_map in J. destruct J as (a & _ & J).
      apply in_flat_map in J. destruct J as (s' & _ & J). apply in_map_iff in J. destruct J as (p & E & _). discriminate.
Qed.
Lemma in_keys n k : In k (keys n) <-> match k with
  | KRef i => i < n | KSf i s => i < n /\ s < 2 | KCh i a s p => i < n /\ a < n /\ s < 4 /\ p < 2 end.
Proof.
  unfold keys. rewrite !in_app_iff, in_map_iff, !in_flat_map. split.
  - intros [(i & <- & I)|[(i & I & J)|(i & I & J)]].
    + apply in_seq in I. lia.
    + apply in_map_iff in J. destruct J as (s & <- & J). apply in_seq in I, J. lia.
    + apply in_flat_map in J. destruct J as (a & A & J). apply in_flat_map in J. destruct J as (s & S & J).
      apply in_map_iff in J. destruct J as (p & <- & J). apply in_seq in I, A, S, J. lia.
  - destruct k as [i|i s|i a s p]; intros H.
    + left. exists i. split; [reflexivity|]. apply in_seq. lia.
    + right. left. exists i. split; [apply in_seq; lia|]. apply in_map, in_seq. lia.
    + right. right. exists i. split; [apply in_seq; lia|]. apply in_flat_map. exists a. split; [apply in_seq; lia|].
      apply in_flat_map. exists s. split; [apply in_seq; lia|]. apply in_map, in_seq. lia.
Qed.

Lemma mapM_in {A B} (f : A -> res B) l : (forall a, In a l -> exists b, f a = Ok b) -> exists bs, mapM f l = Ok bs /\ Forall2 (fun a b => f a = Ok b) l bs.
Proof.
  induction l as [|a l IH]; intros H; [exists []; split; [reflexivity | constructor]|].
  destruct (H a (or_introl eq_refl)) as [b E]. destruct IH as (bs & E1 & F). { intros; apply H; now right. }
  exists (b :: bs). cbn [mapM]. rewrite E. cbn [bind]. rewrite E1. split; [reflexivity | now constructor].
Qed.
Lemma mapM_f2 {A B} (f : A -> res B) l bs : Forall2 (fun a b => f a = Ok b) l bs -> mapM f l = Ok bs.
Proof. induction 1 as [|a b l bs E F IH]; [reflexivity|]. cbn [mapM]. rewrite E. cbn [bind]. now rewrite IH. Qed.

Section P.
Variable K : star_ring.
Add Ring Kring2 : (sring K).
Local Open Scope star_scope.
Notation mat := (mat K).

Definition meq (a b : mat) : Prop :=
  nr a = nr b /\ nc a = nc b /\ forall r j, (r < nr a)%nat -> (j < nc a)%nat -> el a r j = el b r j.
Lemma meq_sym a b : meq a b -> meq b a.
Proof. intros (A & B & C). repeat split; auto. intros r j R J. symmetry. apply C; congruence. Qed.
Lemma meq_trans a b c : meq a b -> meq b c -> meq a c.
Proof. intros (A & B & C) (D & E & F). repeat split; try congruence. intros r j R J. rewrite C by assumption. apply F; congruence. Qed.

Lemma ravel_length (m : mat) : length (ravel K m) = (nr m * nc m)%nat.
Proof.
  unfold ravel. rewrite (flat_const _ (nc m)); [now rewrite seq_length|].
  intros a _. now rewrite map_length, seq_length.
Qed.
Lemma ravel_ext (a b : mat) : meq a b -> ravel K a = ravel K b.
Proof.
  intros (A & B & C). unfold ravel. rewrite <- A, <- B.
  assert (G : forall l, (forall r, In r l -> (r < nr a)%nat) ->
     flat_map (fun r => map (el a r) (seq 0 (nc a))) l = flat_map (fun r => map (el b r) (seq 0 (nc a))) l).
  { induction l as [|r l IH]; intros H; cbn [flat_map]; [reflexivity|]. rewrite IH by (intros; apply H; now right).
    f_equal. apply map_ext_in. intros j J. apply in_seq in J. apply C; [apply H; now left | lia]. }
  apply G. intros r I. apply in_seq in I. lia.
Qed.
Lemma ravel_nth (m : mat) r j : (r < nr m)%nat -> (j < nc m)%nat -> nth (r * nc m + j) (ravel K m) s0 = el m r j.
Proof.
  intros R J. unfold ravel. rewrite (flat_nth s0 _ (nc m) _ r j r); [| |exact J|].
  - rewrite (nth_indep _ s0 (el m r 0%nat)) by (rewrite map_length, seq_length; lia).
    rewrite (map_nth (el m r)), seq_nth by lia. reflexivity.
  - intros a _. now rewrite map_length, seq_length.
  - rewrite (nth_error_nth' (seq 0 (nr m)) 0%nat) by (rewrite seq_length; lia). now rewrite seq_nth by lia.
Qed.
Lemma reshape_ravel (m : mat) : meq (reshape K (nr m) (nc m) (ravel K m)) m.
Proof. repeat split; cbn [reshape nr nc el]; auto. intros r j R J. now apply ravel_nth. Qed.
Lemma ravel_reshape n c (y : list K) : length y = (n * c)%nat -> ravel K (reshape K n c y) = y.
Proof.
  intros L. unfold ravel, reshape. cbn [nr nc el].
  assert (G : forall n a, ((a + n) * c <= length y)%nat ->
    flat_map (fun r => map (fun j => nth (r * c + j) y s0) (seq 0 c)) (seq a n) = firstn (n * c) (skipn (a * c) y)).
  { clear. induction n as [|n IH]; intros a H; [reflexivity|]. cbn [seq flat_map]. rewrite IH by lia.
    cbn [Nat.mul]. rewrite firstn_plus, skipn_skipn'. replace (a * c + c)%nat with (c + a * c)%nat by lia. f_equal.
    rewrite <- (map_nth_seq s0 c) by (rewrite skipn_length; nia). apply map_ext. intros j. now rewrite nth_skip. }
  rewrite G by (rewrite L; cbn; lia). cbn [Nat.mul skipn]. rewrite <- L. apply firstn_all.
Qed.

(** ** rows orthogonal to other rows *)
Definition ip (m : mat) (r : nat) (c0 : mat) (k : nat) : K := bsum (seq 0 (nc m)) (fun l => el m r l * sconj (el c0 k l)).
Definition perp (c0 m : mat) : Prop := forall r k, (r < nr m)%nat -> (k < nr c0)%nat -> ip m r c0 k = s0.
Definition orthonormal (c0 : mat) : Prop := forall k l, (k < nr c0)%nat -> (l < nr c0)%nat -> ip c0 k c0 l = if (k =? l)%nat then s1 else s0.
Lemma bsum_delta n k (f : nat -> K) : (k < n)%nat -> bsum (seq 0 n) (fun j => f j * (if (j =? k)%nat then s1 else s0)) = f k.
Proof.
  intros H. rewrite (bsum_single K _ _ k); [|apply seq_NoDup|apply in_seq; lia|].
  - rewrite Nat.eqb_refl. ring.
  - intros y _ N. apply Nat.eqb_neq in N. rewrite N. ring.
Qed.
Lemma ip_ext a b c0 r k : meq a b -> (r < nr a)%nat -> ip a r c0 k = ip b r c0 k.
Proof.
  intros (A & B & C) R. unfold ip. rewrite <- B. apply bsum_ext. intros l I. apply in_seq in I. now rewrite C by lia.
Qed.
Lemma perp_ext c0 a b : meq a b -> perp c0 a -> perp c0 b.
Proof. intros E H r k R Kk. rewrite <- (ip_ext a b) by (auto; destruct E as (-> & _); exact R). apply H; auto. destruct E as (-> & _); exact R. Qed.
Lemma remove_perp_id c0 c1 : perp c0 c1 -> meq (remove K c0 c1) c1.
Proof.
  intros H. repeat split; cbn [remove nr nc el]; auto. intros r j R J.
  rewrite bsum_0; [ring|]. intros k I. apply in_seq in I.
  change (bsum (seq 0 (nc c1)) (fun l => el c1 r l * sconj (el c0 k l))) with (ip c1 r c0 k).
  rewrite H by lia. ring.
Qed.
Lemma remove_ext c0 a b : meq a b -> meq (remove K c0 a) (remove K c0 b).
Proof.
  intros E. destruct (E) as (A & B & C). repeat split; cbn [remove nr nc el]; auto. intros r j R J. rewrite C by assumption. f_equal.
  apply bsum_ext. intros k I. f_equal. exact (ip_ext a b c0 r k E R).
Qed.
Lemma remove_perp c0 c1 : nc c0 = nc c1 -> orthonormal c0 -> perp c0 (remove K c0 c1).
Proof.
  intros Hc Ho r k R Kk. cbn [remove nr] in R. unfold ip. cbn [remove nc el].
  set (a := fun k' => ip c1 r c0 k').
  rewrite (bsum_ext K _ _ (fun l => el c1 r l * sconj (el c0 k l) + (- (s1)) * bsum (seq 0 (nr c0)) (fun k' => a k' * (el c0 k' l * sconj (el c0 k l))))).
  2:{ intros l _. rewrite (bsum_ext K (seq 0 (nr c0)) (fun k' => a k' * (el c0 k' l * sconj (el c0 k l))) (fun k' => (a k' * el c0 k' l) * sconj (el c0 k l))) by (intros; ring).
      rewrite <- bsum_mul_r.
      change (bsum (seq 0 (nr c0)) (fun k0 => bsum (seq 0 (nc c1)) (fun l0 => el c1 r l0 * sconj (el c0 k0 l0)) * el c0 k0 l))
        with (bsum (seq 0 (nr c0)) (fun k' => a k' * el c0 k' l)). ring. }
  rewrite bsum_add, <- bsum_mul_l, bsum_swap.
  rewrite (bsum_ext K (seq 0 (nr c0)) _ (fun k' => a k' * (if (k' =? k)%nat then s1 else s0))).
  2:{ intros k' I. apply in_seq in I. rewrite <- bsum_mul_l. f_equal.
      transitivity (ip c0 k' c0 k); [unfold ip; now rewrite Hc | apply Ho; lia]. }
  rewrite bsum_delta by exact Kk. unfold a, ip. ring.
Qed.
End P.
