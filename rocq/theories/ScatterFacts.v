(** The orbital ranges of ScatterModel: positions, fragments and the blocks that the copies are made of. *)
From Coq Require Import List ZArith Bool Arith Lia Sorting.Permutation.
From Verif Require Import Base BaseFacts Star SCModel SCBlocks StdmModel CrunchModel ScatterModel ScatterC.
Import ListNotations.
Local Open Scope nat_scope.

(** ** Positions and fragments *)
Lemma list_sum_cons n l : list_sum (n :: l) = n + list_sum l.
Proof. reflexivity. Qed.
Lemma seq_plus a n m : seq a (n + m) = seq a n ++ map (fun p => n + p) (seq a m).
Proof.
  rewrite seq_app. f_equal. assert (G : forall o, seq (o + n) m = map (fun p => n + p) (seq o m)).
  { induction m as [|m IH]; intros o; [reflexivity|]. cbn [seq map]. f_equal; [lia|]. apply (IH (S o)). }
  apply G.
Qed.
Lemma loc_spec nl : forall f p, p < list_sum nl ->
  let gx := loc_from f nl p in f <= fst gx < f + length nl /\ snd gx < nth (fst gx - f) nl 0 /\ p = list_sum (firstn (fst gx - f) nl) + snd gx.
Proof.
  induction nl as [|n nl IH]; intros f p H; [cbn in H; lia|]. cbn [loc_from]. rewrite list_sum_cons in H. destruct (Nat.ltb_spec p n) as [L|L].
  - cbn [fst snd]. rewrite Nat.sub_diag. cbn [nth firstn length]. change (list_sum []) with 0. lia.
  - destruct (IH (S f) (p - n)) as (A & B & C); [lia|]. cbv zeta. set (gx := loc_from (S f) nl (p - n)) in *. clearbody gx.
    replace (fst gx - f) with (S (fst gx - S f)) by lia. cbn [nth firstn length]. rewrite list_sum_cons. lia.
Qed.
Lemma sum_firstn_S l : forall f, list_sum (firstn (S f) l) = list_sum (firstn f l) + nth f l 0.
Proof. induction l as [|x l IH]; intros [|f]; try reflexivity; [cbn; lia|]. change (firstn (S (S f)) (x :: l)) with (x :: firstn (S f) l). change (firstn (S f) (x :: l)) with (x :: firstn f l). rewrite !list_sum_cons, IH. cbn [nth]. lia. Qed.
Lemma sum_firstn_le l : forall f g, f <= g -> list_sum (firstn f l) <= list_sum (firstn g l).
Proof. intros f g H. induction H; [lia|]. rewrite sum_firstn_S. lia. Qed.
Lemma sum_firstn_all l f : list_sum (firstn f l) <= list_sum l.
Proof. destruct (Nat.le_gt_cases (length l) f) as [H|H]; [now rewrite firstn_all2|]. rewrite <- (firstn_all l) at 2. apply sum_firstn_le. lia. Qed.
Lemma locate_spec nl p : p < list_sum nl -> fst (locate nl p) < length nl /\ snd (locate nl p) < nth (fst (locate nl p)) nl 0 /\ p = list_sum (firstn (fst (locate nl p)) nl) + snd (locate nl p).
Proof. intros H. destruct (loc_spec nl 0 p H) as (A & B & C). unfold locate. rewrite Nat.sub_0_r in *. repeat split; [lia|exact B|exact C]. Qed.
Lemma locate_inj nl p q : p < list_sum nl -> q < list_sum nl -> locate nl p = locate nl q -> p = q.
Proof. intros Hp Hq E. destruct (locate_spec nl p Hp) as (_ & _ & A). destruct (locate_spec nl q Hq) as (_ & _ & B). rewrite E in A. lia. Qed.
Lemma locate_off nl f x : f < length nl -> x < nth f nl 0 -> list_sum (firstn f nl) + x < list_sum nl /\ locate nl (list_sum (firstn f nl) + x) = (f, x).
Proof.
  intros Hf Hx. assert (H : list_sum (firstn f nl) + x < list_sum nl) by (pose proof (sum_firstn_all nl (S f)) as G; rewrite sum_firstn_S in G; lia).
  split; [exact H|]. destruct (locate_spec nl _ H) as (A & B & C). set (gx := locate nl (list_sum (firstn f nl) + x)) in *. clearbody gx. destruct gx as [g y]. cbn [fst snd] in *.
  assert (g = f).
  { destruct (Nat.lt_trichotomy f g) as [L|[L|L]]; [|auto|].
    - pose proof (sum_firstn_le nl (S f) g L) as G. rewrite sum_firstn_S in G. lia.
    - pose proof (sum_firstn_le nl (S g) f L) as G. rewrite sum_firstn_S in G. lia. }
  subst g. f_equal. lia.
Qed.
(** a range of get_range holds the positions of its fragment *)
Lemma in_range_locate nl f p : p < list_sum nl -> within (get_range nl f) p = (fst (locate nl p) =? f).
Proof.
  intros H. destruct (locate_spec nl p H) as (A & B & C). unfold within, get_range. cbn [fst snd].
  destruct (Nat.eqb_spec (fst (locate nl p)) f) as [<-|N].
  - apply andb_true_iff. split; [apply Nat.leb_le|apply Nat.ltb_lt]; lia.
  - apply andb_false_iff. destruct (Nat.lt_trichotomy (fst (locate nl p)) f) as [L|[L|L]]; [|contradiction|].
    + left. apply Nat.leb_gt. pose proof (sum_firstn_le nl _ f L) as G. rewrite sum_firstn_S in G. lia.
    + right. apply Nat.ltb_ge. pose proof (sum_firstn_le nl (S f) _ L) as G. rewrite sum_firstn_S in G. lia.
Qed.

(** ** The orbitals of the involved fragments *)
Fixpoint msk (m : nat -> bool) (f : nat) (nl : list nat) : list nat := match nl with [] => [] | n :: r => (if m f then n else 0) :: msk m (S f) r end.
Lemma msk_map m nl : forall f, msk m f nl = map (fun k => if m (f + k) then nth k nl 0 else 0) (seq 0 (length nl)).
Proof.
  induction nl as [|n nl IH]; intros f; [reflexivity|]. cbn [msk length seq map nth]. rewrite Nat.add_0_r. f_equal. rewrite IH, <- seq_shift, map_map. apply map_ext. intros k. now rewrite Nat.add_succ_r.
Qed.
Lemma filter_map {A B} (g : A -> B) (m : B -> bool) l : filter m (map g l) = map g (filter (fun a => m (g a)) l).
Proof. induction l as [|a l IH]; [reflexivity|]. cbn. destruct (m (g a)); cbn; now rewrite IH. Qed.
Lemma filter_const {A} (b : bool) (l : list A) : filter (fun _ => b) l = if b then l else [].
Proof. induction l as [|a l IH]; [now destruct b|]. cbn. rewrite IH. now destruct b. Qed.
Lemma loc_filter m nl : forall f,
  map (loc_from f nl) (filter (fun p => m (fst (loc_from f nl p))) (seq 0 (list_sum nl))) = map (loc_from f (msk m f nl)) (seq 0 (list_sum (msk m f nl))).
Proof.
  induction nl as [|n nl IH]; intros f; [reflexivity|]. cbn [msk]. rewrite !list_sum_cons, !seq_plus, filter_app, !map_app. f_equal.
  - assert (E : filter (fun p => m (fst (loc_from f (n :: nl) p))) (seq 0 n) = if m f then seq 0 n else []).
    { rewrite <- (filter_const (m f)). apply filter_ext_in. intros p Hp. apply in_seq in Hp. cbn [loc_from]. rewrite (proj2 (Nat.ltb_lt p n)) by lia. reflexivity. }
    rewrite E. destruct (m f); [|reflexivity]. apply map_ext_in. intros p Hp. apply in_seq in Hp. cbn [loc_from]. now rewrite (proj2 (Nat.ltb_lt p n)) by lia.
  - rewrite filter_map, !map_map. set (n' := if m f then n else 0).
    assert (S : forall k r p, loc_from f (k :: r) (k + p) = loc_from (S f) r p).
    { intros k r p. cbn [loc_from]. rewrite (proj2 (Nat.ltb_ge (k + p) k)) by lia. f_equal. lia. }
    rewrite (map_ext _ _ (S n' (msk m (Datatypes.S f) nl))), (map_ext _ _ (S n nl)), <- IH. f_equal. apply filter_ext. intros p. now rewrite S.
Qed.

Lemma seq_mul a b : seq 0 (a * b) = flat_map (fun p => map (fun q => p * b + q) (seq 0 b)) (seq 0 a).
Proof.
  induction a as [|a IH]; [reflexivity|]. rewrite seq_S, flat_map_app, <- IH. replace (S a * b) with (a * b + b) by lia. rewrite seq_plus. f_equal. cbn [flat_map]. now rewrite app_nil_r.
Qed.
Lemma filter_flat_map {A B} (g : A -> list B) (m : B -> bool) l : filter m (flat_map g l) = flat_map (fun a => filter m (g a)) l.
Proof. induction l as [|a l IH]; [reflexivity|]. cbn. now rewrite filter_app, IH. Qed.
Lemma flat_map_filter {A B} (g : A -> list B) (m : A -> bool) l : flat_map (fun a => if m a then g a else []) l = flat_map g (filter m l).
Proof. induction l as [|a l IH]; [reflexivity|]. cbn. destruct (m a); cbn; now rewrite IH. Qed.
Lemma nth_list_prod {A} (g : nat * nat -> A) a b p q d : p < a -> q < b -> nth (p * b + q) (map g (list_prod (seq 0 a) (seq 0 b))) d = g (p, q).
Proof.
  intros Hp Hq. assert (G : forall o, nth (p * b + q) (map g (list_prod (seq o a) (seq 0 b))) d = g (o + p, q)).
  { revert p Hp. induction a as [|a IH]; intros p Hp o; [lia|]. cbn [seq list_prod]. rewrite map_app, map_map. destruct p as [|p].
    - rewrite app_nth1 by (rewrite map_length, seq_length; lia). cbn [Nat.mul Nat.add].
      rewrite (nth_indep _ d (g (o, 0))) by (rewrite map_length, seq_length; lia). rewrite (map_nth (fun x => g (o, x))), seq_nth by lia. now rewrite Nat.add_0_r.
    - rewrite app_nth2 by (rewrite map_length, seq_length; lia). rewrite map_length, seq_length. replace (S p * b + q - b) with (p * b + q) by lia. rewrite IH by lia. f_equal. f_equal. lia. }
  exact (G 0).
Qed.

Section Ranges.
  Variables (nlas : list nat) (inv : list nat).
  Let N := norb_tot nlas.
  Definition taken (p : nat) : bool := fragidx inv (fst (locate nlas p)).
  Definition orbs : list nat := filter taken (seq 0 N).
  Lemma nlas_in_msk : nlas_in nlas inv = msk (fragidx inv) 0 nlas.
  Proof. unfold nlas_in. now rewrite msk_map. Qed.
  Lemma orbidx_length : length (orbidx nlas inv) = N.
  Proof.
    unfold orbidx. assert (G : forall l m, length m = N -> length (fold_left (fun m frag => let '(p, q) := get_range nlas frag in
      map (fun k => if (p <=? k) && (k <? q) then true else nth k m false) (seq 0 (norb_tot nlas))) l m) = N).
    { induction l as [|f l IH]; intros m H; [exact H|]. cbn [fold_left]. apply IH. unfold get_range. cbv beta iota zeta. now rewrite map_length, seq_length. }
    apply G. apply repeat_length.
  Qed.
  Lemma orbidx_nth p : p < N -> nth p (orbidx nlas inv) false = taken p.
  Proof.
    intros Hp. unfold orbidx, taken.
    assert (G : forall l m, nth p (fold_left (fun m frag => let '(p, q) := get_range nlas frag in
      map (fun k => if (p <=? k) && (k <? q) then true else nth k m false) (seq 0 (norb_tot nlas))) l m) false = (nth p m false || fragidx l (fst (locate nlas p)))%bool).
    { induction l as [|f l IH]; intros m; cbn [fold_left fragidx existsb]; [now rewrite orb_false_r|]. rewrite IH. pose proof (in_range_locate nlas f p Hp) as E. unfold within in E.
      destruct (get_range nlas f) as [a b]. cbn [fst snd] in E.
      set (g := fun k => if (a <=? k) && (k <? b) then true else nth k m false).
      rewrite (nth_indep _ false (g 0)) by (rewrite map_length, seq_length; exact Hp). rewrite (map_nth g), seq_nth by exact Hp. unfold g. cbn [Nat.add]. rewrite E. fold (fragidx l (fst (locate nlas p))).
      destruct (fst (locate nlas p) =? f); cbn [orb]; [now rewrite orb_true_r|reflexivity]. }
    rewrite G. assert (Z : nth p (repeat false (norb_tot nlas)) false = false) by apply nth_repeat. now rewrite Z.
  Qed.
  Lemma where_orbidx : where_true (orbidx nlas inv) = orbs.
  Proof. unfold where_true, orbs. rewrite orbidx_length. apply filter_ext_in. intros p Hp. apply in_seq in Hp. apply orbidx_nth. lia. Qed.
  (** the k-th of them is the orbital at position k of the restricted ranges *)
  Lemma orbs_locate : map (locate nlas) orbs = map (locate (nlas_in nlas inv)) (seq 0 (list_sum (nlas_in nlas inv))).
  Proof. rewrite nlas_in_msk. exact (loc_filter (fragidx inv) nlas 0). Qed.
  Lemma orbs_length : length orbs = list_sum (nlas_in nlas inv).
  Proof. rewrite <- (map_length (locate nlas)), orbs_locate, map_length. apply seq_length. Qed.
  Lemma orbs_nth k : k < length orbs -> locate nlas (nth k orbs 0) = locate (nlas_in nlas inv) k.
  Proof.
    intros H. pose proof (f_equal (fun l => nth k l (locate nlas 0)) orbs_locate) as E. cbv beta in E. rewrite map_nth in E. rewrite E.
    rewrite (nth_indep _ _ (locate (nlas_in nlas inv) 0)) by (rewrite map_length, seq_length, <- orbs_length; exact H). rewrite map_nth, seq_nth by (rewrite <- orbs_length; exact H). reflexivity.
  Qed.
  Lemma orbs_in p : In p orbs <-> p < N /\ taken p = true.
  Proof. unfold orbs. rewrite filter_In, in_seq. intuition lia. Qed.
  Lemma orbs_nodup : NoDup orbs.
  Proof. apply NoDup_filter, seq_NoDup. Qed.
  Lemma orbs_le : length orbs <= N.
  Proof. rewrite <- (seq_length N 0). apply (NoDup_incl_length orbs_nodup). intros p Hp. apply orbs_in in Hp. apply in_seq. lia. Qed.

  (** ** Pairs of orbitals *)
  Definition opairs : list nat := flat_map (fun p => map (fun q => p * N + q) orbs) orbs.
  Definition pmask : list bool := map (fun pq => nth (fst pq) (orbidx nlas inv) false && nth (snd pq) (orbidx nlas inv) false) (list_prod (seq 0 N) (seq 0 N)).
  Lemma where_pmask : where_true pmask = opairs.
  Proof.
    unfold where_true. replace (length pmask) with (N * N) by (unfold pmask; rewrite map_length, prod_length, !seq_length; reflexivity).
    rewrite seq_mul, filter_flat_map. unfold opairs. unfold orbs at 2. rewrite <- (flat_map_filter (fun p => map (fun q => p * N + q) orbs)).
    rewrite !flat_map_concat_map. f_equal. apply map_ext_in. intros p Hp. apply in_seq in Hp. rewrite filter_map.
    rewrite (filter_ext_in _ (fun q => taken p && taken q)).
    - destruct (taken p); cbn [andb]; [reflexivity|]. now rewrite filter_const.
    - intros q Hq. apply in_seq in Hq. unfold pmask. rewrite nth_list_prod by lia. cbn [fst snd]. now rewrite !orbidx_nth by lia.
  Qed.
  Lemma opairs_length : length opairs = length orbs * length orbs.
  Proof.
    unfold opairs. assert (G : forall l, length (flat_map (fun p => map (fun q => p * N + q) orbs) l) = length l * length orbs); [|apply G].
    induction l as [|p l IH]; [reflexivity|]. cbn [flat_map length]. rewrite app_length, map_length, IH. lia.
  Qed.
  Lemma nth_flat_map (a : list nat) (b : list nat) A B : A < length a -> B < length b -> nth (A * length b + B) (flat_map (fun p => map (fun q => p * N + q) b) a) 0 = nth A a 0 * N + nth B b 0.
  Proof.
    revert A. induction a as [|x a IH]; intros A HA HB; [cbn in HA; lia|]. cbn [flat_map]. destruct A as [|A].
    - rewrite app_nth1 by (rewrite map_length; lia). cbn [Nat.mul Nat.add nth]. rewrite (nth_indep _ 0 ((fun q => x * N + q) 0)) by (rewrite map_length; lia). now rewrite (map_nth (fun q => x * N + q)).
    - rewrite app_nth2 by (rewrite map_length; lia). rewrite map_length. replace (S A * length b + B - length b) with (A * length b + B) by lia. cbn [nth length] in *. rewrite IH by lia. reflexivity.
  Qed.
  Lemma opairs_nth A B : A < length orbs -> B < length orbs -> nth (A * length orbs + B) opairs 0 = nth A orbs 0 * N + nth B orbs 0.
  Proof. apply nth_flat_map. Qed.
  Lemma opairs_in d : In d opairs <-> exists p q, In p orbs /\ In q orbs /\ d = p * N + q.
  Proof.
    unfold opairs. rewrite in_flat_map. split.
    - intros (p & Hp & I). apply in_map_iff in I as (q & <- & Hq). eauto.
    - intros (p & q & Hp & Hq & ->). exists p. split; [exact Hp|]. apply in_map_iff. eauto.
  Qed.
  Lemma pair_inj p q p' q' : q < N -> q' < N -> p * N + q = p' * N + q' -> p = p' /\ q = q'.
  Proof. intros H H' E. assert (p = p') by (destruct (Nat.lt_trichotomy p p') as [L|[L|L]]; [nia|exact L|nia]). lia. Qed.
  Lemma opairs_lt d : In d opairs -> d < N * N.
  Proof. intros I. apply opairs_in in I as (p & q & Hp & Hq & ->). apply orbs_in in Hp, Hq. nia. Qed.
  Lemma opairs_nodup : NoDup opairs.
  Proof. rewrite <- where_pmask. apply NoDup_filter, seq_NoDup. Qed.
End Ranges.

(** ** The buffers are large enough *)
Fixpoint dec (l : list nat) : Prop := match l with [] => True | x :: r => (forall y, In y r -> y <= x) /\ dec r end.
Lemma put_in_in x l : forall y, In y (put_in x l) <-> y = x \/ In y l.
Proof. induction l as [|z l IH]; intros y; cbn [put_in]; [cbn; intuition|]. destruct (z <=? x); cbn [In]; [intuition|]. rewrite IH. intuition. Qed.
Lemma put_in_dec x l : dec l -> dec (put_in x l).
Proof.
  induction l as [|z l IH]; intros H; cbn [put_in]; [cbn; intuition|]. destruct (Nat.leb_spec z x) as [L|L].
  - destruct H as [H1 H2]. split; [|split; assumption]. intros y [->|I]; [exact L|]. specialize (H1 y I). lia.
  - destruct H as [H1 H2]. split; [|now apply IH]. intros y I. apply put_in_in in I as [->|I]; [lia|now apply H1].
Qed.
Lemma bigorb_dec nl : dec (bigorb nl).
Proof. induction nl as [|x nl IH]; [exact I|]. now apply put_in_dec. Qed.
Lemma top_tail k : forall y r, dec (y :: r) -> list_sum (firstn k r) <= list_sum (firstn k (y :: r)).
Proof.
  induction k as [|k IH]; intros y r H; [cbn; lia|]. destruct r as [|z r]; [cbn; lia|]. destruct H as [H1 H2].
  change (firstn (S k) (z :: r)) with (z :: firstn k r). change (firstn (S k) (y :: z :: r)) with (y :: firstn k (z :: r)). rewrite !list_sum_cons.
  specialize (IH z r H2). specialize (H1 z (or_introl eq_refl)). lia.
Qed.
Lemma top_put x l : forall k, list_sum (firstn k l) + x <= list_sum (firstn (S k) (put_in x l)).
Proof.
  induction l as [|y l IH]; intros k; [destruct k; cbn; lia|]. cbn [put_in]. destruct (Nat.leb_spec y x) as [L|L].
  - change (firstn (S k) (x :: y :: l)) with (x :: firstn k (y :: l)). rewrite list_sum_cons. lia.
  - change (firstn (S k) (y :: put_in x l)) with (y :: firstn k (put_in x l)). rewrite list_sum_cons. destruct k as [|k]; [cbn; lia|].
    change (firstn (S k) (y :: l)) with (y :: firstn k l). rewrite list_sum_cons. specialize (IH k). lia.
Qed.
Lemma top_keep x l : dec l -> forall k, list_sum (firstn k l) <= list_sum (firstn k (put_in x l)).
Proof.
  induction l as [|y l IH]; intros H k; [destruct k; cbn; lia|]. cbn [put_in]. destruct (Nat.leb_spec y x) as [L|L].
  - destruct k as [|k]; [cbn; lia|]. change (firstn (S k) (y :: l)) with (y :: firstn k l). change (firstn (S k) (x :: y :: l)) with (x :: firstn k (y :: l)).
    rewrite !list_sum_cons. pose proof (top_tail k y l H). lia.
  - destruct k as [|k]; [cbn; lia|]. change (firstn (S k) (y :: l)) with (y :: firstn k l). change (firstn (S k) (y :: put_in x l)) with (y :: firstn k (put_in x l)).
    rewrite !list_sum_cons. specialize (IH (proj2 H) k). lia.
Qed.
Lemma msk_top m nl : forall f k, length (filter m (seq f (length nl))) <= k -> list_sum (msk m f nl) <= list_sum (firstn k (bigorb nl)).
Proof.
  induction nl as [|n nl IH]; intros f k H; [cbn; lia|]. cbn [msk length seq filter] in *. rewrite list_sum_cons. change (bigorb (n :: nl)) with (put_in n (bigorb nl)).
  destruct (m f).
  - destruct k as [|k]; [cbn in H; lia|]. cbn [length] in H. specialize (IH (S f) k ltac:(lia)). pose proof (top_put n (bigorb nl) k). lia.
  - specialize (IH (S f) k H). pose proof (top_keep n (bigorb nl) (bigorb_dec nl) k). lia.
Qed.
Lemma nlas_in_top nlas inv k : length inv <= k -> list_sum (nlas_in nlas inv) <= list_sum (firstn k (bigorb nlas)).
Proof.
  intros H. rewrite nlas_in_msk. apply msk_top. etransitivity; [|exact H]. apply NoDup_incl_length; [apply NoDup_filter, seq_NoDup|].
  intros f I. apply filter_In in I as [_ I]. unfold fragidx in I. apply existsb_exists in I as (g & Ig & E). apply Nat.eqb_eq in E. now subst.
Qed.

(** ** The environment of a row *)
Lemma fold_sum l : fold_right Nat.add 0 l = list_sum l.
Proof. reflexivity. Qed.
Lemma flat_seq_length d l : length d = length l -> length (flat_map (fun q => seq (fst q) (snd q)) (combine d l)) = list_sum l.
Proof. revert d. induction l as [|x l IH]; intros [|y d] H; try discriminate; [reflexivity|]. cbn [combine flat_map fst snd]. rewrite app_length, seq_length, list_sum_cons, IH by (cbn in H; lia). reflexivity. Qed.
Lemma pos_length l : (forall i, i < length l -> 0 < nth i l 0) -> length l <= list_sum l.
Proof.
  induction l as [|x l IH]; intros H; [cbn; lia|]. cbn [length]. rewrite list_sum_cons. pose proof (H 0 ltac:(cbn; lia)) as H0. cbn [nth] in H0.
  specialize (IH (fun i Hi => H (S i) ltac:(cbn; lia))). lia.
Qed.
Lemma reshape_ok {A} len size (k : res A) : size <= len -> reshape_buf len size k = k.
Proof. intros H. unfold reshape_buf. rewrite (proj2 (Nat.eqb_eq _ _)) by lia. reflexivity. Qed.
Definition env_of (nlas inv : list nat) (e : env) : Prop :=
  e_nlas e = nlas_in nlas inv /\ e_nsrc e = length (orbs nlas inv) /\ e_pdest e = opairs nlas inv /\
  pairs (e_dblk e) (e_sblk e) (e_lblk e) = combine (opairs nlas inv) (seq 0 (length (opairs nlas inv))) /\
  (forall i, i < length (e_lblk e) -> 0 < nth i (e_lblk e) 0) /\ length (e_lblk e) <= norb_tot nlas * norb_tot nlas.
Lemma orbrange_ok nlas nthreads inv : 0 < norb_tot nlas -> 0 < nthreads -> length inv <= 4 -> exists e, orbrange_env nlas nthreads inv = Ok e /\ env_of nlas inv e.
Proof.
  intros HN Ht Hi. unfold orbrange_env. cbv zeta.
  assert (B2 : 4 * list_sum (nlas_in nlas inv) ^ 4 <= 4 * list_sum (firstn 4 (bigorb nlas)) ^ 4) by (apply Nat.mul_le_mono_l, Nat.pow_le_mono_l, nlas_in_top, Hi).
  match goal with |- exists e, (if ?c then ?f else ?g) ?k = _ /\ _ => assert (E1 : (if c then f else g) k = k) end.
  { destruct (Nat.ltb_spec (length inv) 3) as [L|L]; [|reflexivity]. apply reshape_ok. apply Nat.mul_le_mono_l, Nat.pow_le_mono_l, nlas_in_top. lia. }
  rewrite E1, reshape_ok by exact B2. clear E1 B2. rewrite where_orbidx. fold (pmask nlas inv). rewrite where_pmask.
  pose proof (orbs_le nlas inv) as Le. pose proof (opairs_length nlas inv) as Lp.
  destruct (Nat.eqb_spec (length (orbs nlas inv)) (norb_tot nlas)) as [E|NE].
  - destruct (split_contig_ok (norb_tot nlas ^ 2) nthreads) as (st & bl & Es & L1 & L2 & Sb & Sp & Po); [cbn; nia|exact Ht|]. rewrite Es. cbn [bind fst snd].
    eexists. split; [reflexivity|]. unfold env_of. cbn [e_nlas e_nsrc e_pdest e_dblk e_sblk e_lblk]. repeat (split; [reflexivity|]).
    assert (Eo : orbs nlas inv = seq 0 (norb_tot nlas)).
    { unfold orbs in *. transitivity (filter (fun _ => true) (seq 0 (norb_tot nlas))); [|apply filter_const]. apply filter_ext_in. intros p Hp.
      destruct (taken nlas inv p) eqn:Tp; [reflexivity|]. exfalso.
      assert (G : NoDup (p :: filter (taken nlas inv) (seq 0 (norb_tot nlas)))) by (constructor; [intros I; apply filter_In in I as [_ I]; congruence|apply NoDup_filter, seq_NoDup]).
      assert (I : incl (p :: filter (taken nlas inv) (seq 0 (norb_tot nlas))) (seq 0 (norb_tot nlas))) by (intros q [<-|I]; [exact Hp|apply filter_In in I; tauto]).
      pose proof (NoDup_incl_length G I) as Q. cbn [length] in Q. rewrite seq_length in Q. rewrite E in Q. exact (Nat.nle_succ_diag_l _ Q). }
    assert (Ep : opairs nlas inv = seq 0 (norb_tot nlas ^ 2))  by (unfold opairs; rewrite Eo, <- seq_mul, Nat.pow_2_r; reflexivity).
    rewrite fold_sum in Sb. split; [|split].
    + rewrite pairs_eq; [|lia|intros k Hk; rewrite Sp by lia; apply fold_sum]. rewrite Ep, seq_length, Sb. f_equal. rewrite <- Sb, <- (flat_seq_prefix bl 0). f_equal. f_equal.
      apply (nth_ext _ _ 0 0); [rewrite map_length, seq_length; lia|]. intros k Hk. rewrite (nth_indep (map _ _) 0 ((fun k => 0 + list_sum (firstn k bl)) 0)) by (rewrite map_length, seq_length; lia).
      rewrite (map_nth (fun k => 0 + list_sum (firstn k bl))), seq_nth by lia. rewrite Sp by lia. reflexivity.
    + intros i Hi'. destruct (Po i Hi'); lia.
    + rewrite L2, Nat.pow_2_r. apply Nat.le_min_l.
  - pose proof (contig_blocks (pmask nlas inv)) as C. pose proof (contig_maximal (pmask nlas inv)) as M. destruct (get_contig_blks (pmask nlas inv)) as [[src dest] bl].
    destruct C as (C1 & C2 & C3 & _). rewrite where_pmask in C2. cbn [bind fst snd]. eexists. split; [reflexivity|]. unfold env_of. cbn [e_nlas e_nsrc e_pdest e_dblk e_sblk e_lblk].
    repeat (split; [reflexivity|]). assert (Sb : list_sum bl = length (opairs nlas inv)) by (rewrite <- C2, flat_seq_length by lia; reflexivity).
    assert (Po : forall i, i < length bl -> 0 < nth i bl 0).
    { intros i Hi'. destruct (M (nth i dest 0) (nth i bl 0)) as [P _]; [|exact P]. rewrite <- combine_nth by lia. apply nth_In. rewrite combine_length. lia. }
    split; [|split; [exact Po|]].
    + rewrite pairs_eq; [|lia|intros k Hk; rewrite C3 by lia; apply fold_sum]. now rewrite C2, Sb.
    + pose proof (pos_length bl Po) as Q. rewrite Sb, Lp in Q. nia.
Qed.
