(** Adjointness and round trip of the basis maps. *)
From Coq Require Import List ZArith Lia Bool Arith Ring Sorting.Permutation.
From Verif Require Import Base BaseFacts AddrModel AddrFacts AddrSpec AddrProofs AddrBlocks TransFacts Star BasisModel.
Import ListNotations.
Local Open Scope nat_scope.

Section Generic.
Variable K : star_ring.
Add Ring Kring2 : (sring K).

(** A block of a linear map: raw labels and orthogonal labels with their positions, coefficients. *)
Record blk (I J : Type) : Type := mkBlk {
  bI : list I; pI : I -> nat; bJ : list J; pJ : J -> nat; bC : I -> J -> K }.
Arguments bI {I J}. Arguments pI {I J}. Arguments bJ {I J}. Arguments pJ {I J}. Arguments bC {I J}.

Context {I J : Type}.
Variables (B : list (blk I J)) (north nraw : nat).
Hypothesis HJ : Permutation (flat_map (fun b => map (pJ b) (bJ b)) B) (seq 0 north).
Hypothesis HI : NoDup (flat_map (fun b => map (pI b) (bI b)) B).
Hypothesis HIr : forall s, In s (flat_map (fun b => map (pI b) (bI b)) B) -> s < nraw.

Definition applies (x ax : nat -> K) : Prop := forall b j, In b B -> In j (bJ b) ->
  ax (pJ b j) = bsum (bI b) (fun i => smul (bC b i j) (x (pI b i))).
Definition applies_back (y By_ : nat -> K) : Prop :=
  (forall b i, In b B -> In i (bI b) ->
     By_ (pI b i) = bsum (bJ b) (fun j => smul (sconj (bC b i j)) (y (pJ b j)))) /\
  (forall s, ~ In s (flat_map (fun b => map (pI b) (bI b)) B) -> By_ s = s0).

Lemma adjoint_generic x ax y By_ : applies x ax -> applies_back y By_ ->
  bsum (seq 0 north) (fun k => smul (sconj (y k)) (ax k))
  = bsum (seq 0 nraw) (fun s => smul (sconj (By_ s)) (x s)).
Proof.
  intros HA [HB HB0].
  rewrite <- (bsum_perm K _ _ _ HJ), bsum_flat_map.
  rewrite (bsum_support K Nat.eq_dec (seq 0 nraw) (flat_map (fun b => map (pI b) (bI b)) B)); auto.
  - rewrite bsum_flat_map. apply bsum_ext. intros b Hb. rewrite !bsum_map.
    transitivity (bsum (bJ b) (fun j => bsum (bI b) (fun i =>
       smul (smul (sconj (y (pJ b j))) (bC b i j)) (x (pI b i))))).
    + apply bsum_ext. intros j Hj. rewrite (HA b j Hb Hj), bsum_mul_l.
      apply bsum_ext. intros i _. ring.
    + rewrite bsum_swap. apply bsum_ext. intros i Hi. rewrite (HB b i Hb Hi), bsum_conj, bsum_mul_r.
      apply bsum_ext. intros j _. rewrite sconj_mul, sconj_inv. ring.
  - apply seq_NoDup.
  - intros s Hs. apply in_seq. specialize (HIr s Hs). lia.
  - intros s _ Hs. rewrite (HB0 s Hs), sconj_0. ring.
Qed.

(** orthonormal columns in every block *)
Lemma round_trip_generic y By_ z :
  (forall b j j', In b B -> In j (bJ b) -> In j' (bJ b) ->
     (j = j' -> bsum (bI b) (fun i => smul (bC b i j) (sconj (bC b i j'))) = s1) /\
     (j <> j' -> bsum (bI b) (fun i => smul (bC b i j) (sconj (bC b i j'))) = s0)) ->
  (forall b, In b B -> NoDup (bJ b)) ->
  applies_back y By_ -> applies By_ z -> forall k, k < north -> z k = y k.
Proof.
  intros Ho Hnd [HB _] HA k Hk.
  assert (Hin : In k (flat_map (fun b => map (pJ b) (bJ b)) B)).
  { apply (Permutation_in _ (Permutation_sym HJ)), in_seq. lia. }
  apply in_flat_map in Hin as (b & Hb & Hj). apply in_map_iff in Hj as (j & <- & Hj).
  rewrite (HA b j Hb Hj).
  transitivity (bsum (bI b) (fun i => bsum (bJ b) (fun j' =>
     smul (smul (bC b i j) (sconj (bC b i j'))) (y (pJ b j'))))).
  - apply bsum_ext. intros i Hi. rewrite (HB b i Hb Hi), bsum_mul_l. apply bsum_ext. intros; ring.
  - rewrite bsum_swap.
    transitivity (bsum (bJ b) (fun j' => smul (bsum (bI b) (fun i => smul (bC b i j) (sconj (bC b i j')))) (y (pJ b j')))).
    + apply bsum_ext. intros j' _. rewrite bsum_mul_r. auto.
    + rewrite (bsum_single K (bJ b) _ j); auto.
      * rewrite (proj1 (Ho b j j Hb Hj Hj) eq_refl). ring.
      * intros j' Hj' Hne. rewrite (proj2 (Ho b j j' Hb Hj Hj')); [ring|congruence].
Qed.
End Generic.
Arguments bI {K I J}. Arguments pI {K I J}. Arguments bJ {K I J}. Arguments pJ {K I J}. Arguments bC {K I J}.
Arguments mkBlk {K I J}.
Arguments applies {K I J}. Arguments applies_back {K I J}.

Section One.
Variable K : star_ring.
Add Ring Kring4 : (sring K).
Lemma sconj_1 : sconj (@s1 K) = s1.
Proof.
  transitivity (sconj (smul (sconj (@s1 K)) s1)).
  - rewrite sconj_mul, sconj_inv. ring.
  - replace (smul (sconj (@s1 K)) s1) with (sconj (@s1 K)) by ring. apply sconj_inv.
Qed.
End One.

Section Scatter.
Variable K : star_ring.

Lemma scatter_notin (mirror : list nat) : forall (arr : nat -> K) a vals s, ~ In s mirror ->
  scatter K arr mirror a vals s = arr s.
Proof.
  induction mirror as [|t r IH]; intros arr a vals s H; cbn [scatter]; auto.
  cbn in H. rewrite IH by tauto. destruct (Nat.eqb_spec s t); [subst; tauto|auto].
Qed.

Lemma scatter_in (mirror : list nat) : forall (arr : nat -> K) a vals i s, NoDup mirror ->
  nth_error mirror i = Some s -> scatter K arr mirror a vals s = vals (a + i).
Proof.
  induction mirror as [|t r IH]; intros arr a vals i s Hnd Hi; [destruct i; discriminate|].
  inversion Hnd as [|? ? Ht Hr]; subst. cbn [scatter]. destruct i as [|i]; cbn [nth_error] in Hi.
  - injection Hi as ->. rewrite scatter_notin by auto. rewrite Nat.eqb_refl, Nat.add_0_r. auto.
  - rewrite (IH _ (S a) vals i s Hr Hi). f_equal. lia.
Qed.
End Scatter.

Section Orth.
Variable K : star_ring.
Add Ring Kring3 : (sring K).
Implicit Types (m : manifold K) (mans : list (manifold K)).

(** Shapes fit together. *)
Definition man_ok m : Prop :=
  Forall (fun mirror => length mirror = nraw1 m) (prod_idx_ m) /\
  (xmat m = None -> north1 m = nraw1 m).

(** coefficient of raw position a in column c *)
Definition coef m (a c : nat) : K :=
  match xmat m with Some x => x a c | None => if a =? c then s1 else s0 end.

(** the list of (manifold, m-block) *)
Definition flat mans : list (manifold K * list nat) :=
  flat_map (fun m => map (pair m) (prod_idx_ m)) mans.

Lemma flat_cons m mans : flat (m :: mans) = map (pair m) (prod_idx_ m) ++ flat mans.
Proof. reflexivity. Qed.

Lemma nprods_orth_flat mans : nprods_orth K mans = map (fun b => north1 (fst b)) (flat mans).
Proof.
  unfold nprods_orth, flat. induction mans as [|m mans IH]; cbn; auto.
  rewrite map_app, IH, map_map. f_equal. cbn [fst].
  induction (prod_idx_ m); cbn; f_equal; auto.
Qed.

Lemma nth_offs_orth mans p : p < length (flat mans) ->
  nth p (offs_orth K mans) (0, 0)
  = (before (nprods_orth K mans) p, before (nprods_orth K mans) (S p)).
Proof.
  intros Hp. unfold offs_orth, cumsum.
  assert (L : length (nprods_orth K mans) = length (flat mans))
    by (rewrite nprods_orth_flat, map_length; auto).
  rewrite combine_nth by (rewrite offs0_length, cumsum_from_length; auto).
  rewrite nth_offs0 by lia. rewrite nth_cumsum_from by lia. rewrite !before_sum. auto.
Qed.

Section Run.
Variable mans : list (manifold K).
Let sizes := nprods_orth K mans.
Let off p := before sizes p.

(** one pass over the flattened list *)
Fixpoint mv_flat (bs : list (manifold K * list nat)) (raw : nat -> K) (p : nat) (orth : nat -> K) : nat -> K :=
  match bs with
  | [] => orth
  | (m, mirror) :: r =>
      mv_flat r raw (S p) (put_slice K orth (off p) (off (S p))
        (match xmat m with None => gather K raw mirror | Some x => xT_dot K x (nraw1 m) (gather K raw mirror) end))
  end.
Fixpoint rmv_flat (bs : list (manifold K * list nat)) (orth : nat -> K) (p : nat) (raw : nat -> K) : nat -> K :=
  match bs with
  | [] => raw
  | (m, mirror) :: r =>
      rmv_flat r orth (S p) (scatter K raw mirror 0
        (match xmat m with None => (fun c => orth (off p + c))
         | Some x => xconj_dot K x (north1 m) (fun c => orth (off p + c)) end))
  end.

Lemma mv_mirrors_flat m raw : forall mirrors p orth rest,
  p + length mirrors <= length (flat mans) ->
  let r := mv_mirrors K (offs_orth K mans) m mirrors raw p orth in
  fst r = p + length mirrors /\
  mv_flat rest raw (fst r) (snd r) = mv_flat (map (pair m) mirrors ++ rest) raw p orth.
Proof.
  induction mirrors as [|mirror mirrors IH]; intros p orth rest Hp; cbn [mv_mirrors map app length] in *.
  - cbn. split; [lia|auto].
  - rewrite nth_offs_orth by lia. fold sizes. cbv zeta.
    destruct (IH (S p) (put_slice K orth (before sizes p) (before sizes (S p))
      (match xmat m with None => gather K raw mirror | Some x => xT_dot K x (nraw1 m) (gather K raw mirror) end))
      rest ltac:(lia)) as [H1 H2].
    split; [rewrite H1; lia|]. rewrite H2. reflexivity.
Qed.

Lemma rmv_mirrors_flat m orth : forall mirrors p raw rest,
  p + length mirrors <= length (flat mans) ->
  let r := rmv_mirrors K (offs_orth K mans) m mirrors orth p raw in
  fst r = p + length mirrors /\
  rmv_flat rest orth (fst r) (snd r) = rmv_flat (map (pair m) mirrors ++ rest) orth p raw.
Proof.
  induction mirrors as [|mirror mirrors IH]; intros p raw rest Hp; cbn [rmv_mirrors map app length] in *.
  - cbn. split; [lia|auto].
  - rewrite nth_offs_orth by lia. fold sizes. cbv zeta.
    destruct (IH (S p) (scatter K raw mirror 0
        (match xmat m with None => (fun c => orth (before sizes p + c))
         | Some x => xconj_dot K x (north1 m) (fun c => orth (before sizes p + c)) end))
      rest ltac:(lia)) as [H1 H2].
    split; [rewrite H1; lia|]. rewrite H2. reflexivity.
Qed.

Lemma mv_mans_flat raw : forall ms p orth, p + length (flat ms) <= length (flat mans) ->
  mv_mans K (offs_orth K mans) ms raw p orth = mv_flat (flat ms) raw p orth.
Proof.
  induction ms as [|m ms IH]; intros p orth Hp; cbn [mv_mans]; auto.
  rewrite flat_cons in Hp |- *. rewrite app_length, map_length in Hp.
  destruct (mv_mirrors_flat m raw (prod_idx_ m) p orth (flat ms) ltac:(lia)) as [H1 H2].
  destruct (mv_mirrors K (offs_orth K mans) m (prod_idx_ m) raw p orth) as [p' orth'].
  cbn [fst snd] in *. subst p'. rewrite <- H2. apply IH. lia.
Qed.

Lemma rmv_mans_flat orth : forall ms p raw, p + length (flat ms) <= length (flat mans) ->
  rmv_mans K (offs_orth K mans) ms orth p raw = rmv_flat (flat ms) orth p raw.
Proof.
  induction ms as [|m ms IH]; intros p raw Hp; cbn [rmv_mans]; auto.
  rewrite flat_cons in Hp |- *. rewrite app_length, map_length in Hp.
  destruct (rmv_mirrors_flat m orth (prod_idx_ m) p raw (flat ms) ltac:(lia)) as [H1 H2].
  destruct (rmv_mirrors K (offs_orth K mans) m (prod_idx_ m) orth p raw) as [p' raw'].
  cbn [fst snd] in *. subst p'. rewrite <- H2. apply IH. lia.
Qed.

Lemma mv_flat_old raw : forall bs p orth k, p + length bs <= length sizes -> k < off p ->
  mv_flat bs raw p orth k = orth k.
Proof.
  induction bs as [|[m mirror] bs IH]; intros p orth k Hp Hk; cbn [mv_flat length] in *; auto.
  rewrite IH; [|lia|].
  - unfold put_slice. destruct (Nat.leb_spec (off p) k); [lia|]. auto.
  - unfold off in *. pose proof (before_le sizes p (S p)). lia.
Qed.

Lemma mv_flat_new raw : forall bs p orth q m mirror c, p + length bs <= length sizes ->
  (forall q m mirror, nth_error bs q = Some (m, mirror) -> nth (p + q) sizes 0 = north1 m) ->
  nth_error bs q = Some (m, mirror) -> c < north1 m ->
  mv_flat bs raw p orth (off (p + q) + c) =
  match xmat m with None => gather K raw mirror c | Some x => xT_dot K x (nraw1 m) (gather K raw mirror) c end.
Proof.
  induction bs as [|[m0 mirror0] bs IH]; intros p orth q m mirror c Hp Hsz Hq Hc; [destruct q; discriminate|].
  cbn [mv_flat length] in *. destruct q as [|q]; cbn [nth_error] in Hq.
  - injection Hq as -> ->. specialize (Hsz 0 m mirror eq_refl). rewrite Nat.add_0_r in *.
    assert (Eoff : off (S p) = off p + north1 m) by (unfold off; rewrite before_S by lia; lia).
    rewrite mv_flat_old by lia.
    unfold put_slice. destruct (Nat.leb_spec (off p) (off p + c)); [|lia].
    destruct (Nat.ltb_spec (off p + c) (off (S p))); [|lia]. cbn [andb].
    replace (off p + c - off p) with c by lia. destruct (xmat m); auto.
  - replace (p + S q) with (S p + q) by lia. apply IH; auto; [lia|].
    intros q' m' mirror' Hq'. specialize (Hsz (S q') m' mirror' Hq'). replace (S p + q') with (p + S q') by lia. auto.
Qed.

Lemma rmv_flat_out orth s : forall bs p raw, (forall b, In b bs -> ~ In s (snd b)) ->
  rmv_flat bs orth p raw s = raw s.
Proof.
  induction bs as [|[m mirror] bs IH]; intros p raw H; cbn [rmv_flat]; auto.
  rewrite IH by (intros; apply H; right; auto). apply scatter_notin. apply (H (m, mirror)); left; auto.
Qed.

Lemma rmv_flat_in orth : forall bs p raw q m mirror a s,
  NoDup (concat (map snd bs)) ->
  nth_error bs q = Some (m, mirror) -> nth_error mirror a = Some s ->
  rmv_flat bs orth p raw s =
  match xmat m with None => orth (off (p + q) + a)
  | Some x => xconj_dot K x (north1 m) (fun c => orth (off (p + q) + c)) a end.
Proof.
  induction bs as [|[m0 mirror0] bs IH]; intros p raw q m mirror a s Hnd Hq Ha; [destruct q; discriminate|].
  cbn [map snd concat] in Hnd. apply NoDup_app_inv in Hnd as (N1 & N2 & N3).
  cbn [rmv_flat]. destruct q as [|q]; cbn [nth_error] in Hq.
  - injection Hq as -> ->. rewrite rmv_flat_out.
    + rewrite (scatter_in K mirror _ 0 _ a s N1 Ha). rewrite Nat.add_0_r, Nat.add_0_l.
      destruct (xmat m); auto.
    + intros b Hb Hc. apply (N3 s); [apply nth_error_In in Ha; auto|].
      apply in_concat. exists (snd b). split; auto. apply in_map; auto.
  - replace (p + S q) with (S p + q) by lia. apply IH with (mirror := mirror); auto.
Qed.

Variable nraw : nat.
Hypothesis Hok : Forall man_ok mans.
Hypothesis Hnd : NoDup (concat (flat_map prod_idx_ mans)).
Hypothesis Hlt : forall s, In s (concat (flat_map prod_idx_ mans)) -> s < nraw.

Lemma flat_snd : map snd (flat mans) = flat_map prod_idx_ mans.
Proof.
  clear. unfold flat. induction mans as [|m ms IH]; cbn; auto. rewrite map_app, IH, map_map. cbn [snd].
  rewrite map_id. auto.
Qed.

Lemma flat_in m mirror : In (m, mirror) (flat mans) -> man_ok m /\ length mirror = nraw1 m.
Proof.
  clear - Hok. intros H. unfold flat in H. apply in_flat_map in H as (m0 & Hm & H).
  apply in_map_iff in H as (mi & E & Hmi). injection E as <- <-.
  rewrite Forall_forall in Hok. specialize (Hok m0 Hm). split; auto.
  destruct Hok as [H1 _]. rewrite Forall_forall in H1. auto.
Qed.

Definition mkblk (pb : nat * (manifold K * list nat)) : blk K nat nat :=
  let '(p, (m, mirror)) := pb in
  mkBlk (seq 0 (nraw1 m)) (fun a => nth a mirror 0) (seq 0 (north1 m)) (fun c => off p + c) (coef m).
Definition blocks : list (blk K nat nat) := map mkblk (combine (seq 0 (length (flat mans))) (flat mans)).

Lemma blocks_in b : In b blocks ->
  exists p m mirror, b = mkblk (p, (m, mirror)) /\ nth_error (flat mans) p = Some (m, mirror).
Proof.
  unfold blocks. intros H. apply in_map_iff in H as ([p [m mirror]] & <- & H).
  exists p, m, mirror. split; auto.
  assert (G : forall l b, In (p, (m, mirror)) (combine (seq b (length l)) l) ->
    b <= p /\ nth_error l (p - b) = Some (m, mirror)).
  { clear. induction l as [|x l IH]; intros b; cbn; [tauto|]. intros [H|H].
    - injection H as -> ->. rewrite Nat.sub_diag; auto.
    - apply IH in H as [H1 H2]. split; [lia|]. replace (p - b) with (S (p - S b)) by lia. auto. }
  apply G in H as [_ H]. rewrite Nat.sub_0_r in H. auto.
Qed.

Lemma blocks_I : flat_map (fun b => map (pI b) (bI b)) blocks = concat (flat_map prod_idx_ mans).
Proof.
  rewrite <- flat_snd. unfold blocks.
  assert (HF : Forall (fun b => length (snd b) = nraw1 (fst b)) (flat mans)).
  { apply Forall_forall. intros [m mirror] H. apply flat_in in H as [_ H]. auto. }
  assert (G : forall l b, Forall (fun b : manifold K * list nat => length (snd b) = nraw1 (fst b)) l ->
    flat_map (fun b => map (pI b) (bI b)) (map mkblk (combine (seq b (length l)) l)) = concat (map snd l)).
  { clear. induction l as [|[m mirror] l IH]; intros b HF; auto.
    inversion HF as [|? ? H1 H2]; subst. cbn [length seq combine map flat_map concat snd fst] in *.
    rewrite IH by auto. f_equal. cbn. rewrite <- H1. exact (pick_seq mirror). }
  apply G; auto.
Qed.

Lemma seq_blocks l : forall b acc, 
  flat_map (fun pb : nat * nat => map (fun c => acc + before l (fst pb - b) + c) (seq 0 (snd pb))) (combine (seq b (length l)) l)
  = seq acc (fold_right Nat.add 0 l).
Proof.
  clear. induction l as [|x l IH]; intros b acc; cbn [length seq combine flat_map fold_right fst snd]; auto.
  rewrite seq_app. f_equal.
  - rewrite Nat.sub_diag. cbn. rewrite Nat.add_0_r. clear. 
    assert (G : forall n b, map (fun c => acc + c) (seq b n) = seq (acc + b) n).
    { induction n as [|n IHn]; intros b0; [reflexivity|].
      cbn [seq map]. rewrite IHn. f_equal. f_equal. lia. }
    rewrite G. f_equal. lia.
  - rewrite <- (IH (S b) (acc + x)). rewrite !flat_map_concat_map. f_equal. apply map_ext_in. intros [p y] Hin. cbn [fst snd].
    apply in_combine_l, in_seq in Hin.
    apply map_ext. intros c. replace (p - b) with (S (p - S b)) by lia. unfold before. cbn [firstn fold_right]. lia.
Qed.

Lemma blocks_J : flat_map (fun b => map (pJ b) (bJ b)) blocks = seq 0 (fold_right Nat.add 0 sizes).
Proof.
  rewrite <- (seq_blocks sizes 0 0). unfold blocks.
  unfold sizes. rewrite nprods_orth_flat, map_length.
  rewrite flat_map_concat_map, map_map.
  rewrite flat_map_concat_map. f_equal.
  assert (G : forall l b, map (fun x => map (pJ (mkblk x)) (bJ (mkblk x))) (combine (seq b (length l)) l)
    = map (fun pb : nat * nat => map (fun c => 0 + before (map (fun b0 : manifold K * list nat => north1 (fst b0)) (flat mans)) (fst pb - 0) + c) (seq 0 (snd pb)))
          (combine (seq b (length l)) (map (fun b0 : manifold K * list nat => north1 (fst b0)) l))).
  { induction l as [|[m mirror] l IH]; intros b; auto.
    cbn [length seq combine map]. rewrite IH. f_equal. cbn. unfold off, sizes. rewrite nprods_orth_flat.
    rewrite Nat.sub_0_r. auto. }
  apply G.
Qed.

Lemma sizes_len : length sizes = length (flat mans).
Proof. unfold sizes. rewrite nprods_orth_flat, map_length. auto. Qed.

Lemma sizes_nth q m mirror : nth_error (flat mans) q = Some (m, mirror) -> nth q sizes 0 = north1 m.
Proof.
  intros H. unfold sizes. rewrite nprods_orth_flat. apply nth_error_nth. rewrite nth_error_map, H. auto.
Qed.

Lemma matvec_applies x : applies blocks x (matvec K mans x).
Proof.
  intros b j Hb Hj. apply blocks_in in Hb as (p & m & mirror & -> & Hp). cbn [mkblk bI pI bJ pJ bC] in *.
  assert (Hin := nth_error_In _ _ Hp). apply flat_in in Hin as [[_ Hx] Hl].
  apply in_seq in Hj. unfold matvec. rewrite mv_mans_flat by lia.
  rewrite (mv_flat_new x (flat mans) 0 _ p m mirror j); auto; [|rewrite sizes_len; lia|intros; apply sizes_nth with mirror0; auto|lia].
  unfold coef. destruct (xmat m) as [xm|] eqn:E.
  - reflexivity.
  - rewrite (bsum_single K (seq 0 (nraw1 m)) _ j).
    + rewrite Nat.eqb_refl. unfold gather. ring.
    + apply seq_NoDup.
    + apply in_seq. rewrite <- (Hx eq_refl). lia.
    + intros y _ Hne. destruct (Nat.eqb_spec y j); [congruence|ring].
Qed.

Lemma rmatvec_applies y : applies_back blocks y (rmatvec K mans y).
Proof.
  split.
  - intros b i Hb Hi. apply blocks_in in Hb as (p & m & mirror & -> & Hp). cbn [mkblk bI pI bJ pJ bC] in *.
    assert (Hin := nth_error_In _ _ Hp). apply flat_in in Hin as [[_ Hx] Hl].
    apply in_seq in Hi. unfold rmatvec. rewrite rmv_mans_flat by lia.
    rewrite (rmv_flat_in y (flat mans) 0 _ p m mirror i); auto.
    + cbn [Nat.add]. unfold coef. destruct (xmat m) as [xm|] eqn:E.
      * reflexivity.
      * rewrite (bsum_single K (seq 0 (north1 m)) _ i).
        -- rewrite Nat.eqb_refl.
           rewrite (sconj_1 K). ring.
        -- apply seq_NoDup.
        -- apply in_seq. rewrite (Hx eq_refl). lia.
        -- intros c _ Hne. destruct (Nat.eqb_spec i c); [congruence|]. rewrite sconj_0. ring.
    + rewrite flat_snd; auto.
    + rewrite (nth_error_nth_some _ _ 0) by lia. auto.
  - intros s Hs. rewrite blocks_I in Hs. unfold rmatvec. rewrite rmv_mans_flat by lia.
    rewrite rmv_flat_out; auto. intros b Hb Hc. apply Hs. rewrite <- flat_snd. apply in_concat.
    exists (snd b). split; auto. apply in_map; auto.
Qed.

Lemma orth_adjoint x y :
  bsum (seq 0 (fold_right Nat.add 0 sizes)) (fun k => smul (sconj (y k)) (matvec K mans x k))
  = bsum (seq 0 nraw) (fun s => smul (sconj (rmatvec K mans y s)) (x s)).
Proof.
  apply (adjoint_generic K blocks).
  - rewrite blocks_J. apply Permutation_refl.
  - rewrite blocks_I; auto.
  - rewrite blocks_I; auto.
  - apply matvec_applies.
  - apply rmatvec_applies.
Qed.

Lemma orth_round_trip y :
  (forall m, In m mans -> forall c c', c < north1 m -> c' < north1 m ->
     forall x, xmat m = Some x ->
     bsum (seq 0 (nraw1 m)) (fun a => smul (x a c) (sconj (x a c'))) = if c =? c' then s1 else s0) ->
  forall k, k < fold_right Nat.add 0 sizes -> matvec K mans (rmatvec K mans y) k = y k.
Proof.
  intros Hx k Hk.
  apply (round_trip_generic K blocks (fold_right Nat.add 0 sizes)) with (By_ := rmatvec K mans y); auto.
  - rewrite blocks_J. apply Permutation_refl.
  - intros b j j' Hb Hj Hj'. apply blocks_in in Hb as (p & m & mirror & -> & Hp). cbn [mkblk bI bJ bC] in *.
    assert (Hin := nth_error_In _ _ Hp).
    assert (Hm : In m mans).
    { unfold flat in Hin. apply in_flat_map in Hin as (m0 & Hm & H).
      apply in_map_iff in H as (mi & E & _). injection E as <- _. auto. }
    apply flat_in in Hin as [[_ Hn] Hl].
    apply in_seq in Hj, Hj'.
    assert (E : bsum (seq 0 (nraw1 m)) (fun i => smul (coef m i j) (sconj (coef m i j'))) = if j =? j' then s1 else s0).
    { unfold coef. destruct (xmat m) as [x|] eqn:E.
      - apply (Hx m Hm); auto; lia.
      - rewrite (bsum_single K (seq 0 (nraw1 m)) _ j).
        + rewrite Nat.eqb_refl. destruct (Nat.eqb_spec j j').
          * rewrite (sconj_1 K). ring.
          * rewrite sconj_0. ring.
        + apply seq_NoDup.
        + apply in_seq. rewrite <- (Hn eq_refl). lia.
        + intros a _ Hne. destruct (Nat.eqb_spec a j); [congruence|]. ring. }
    split; intros Hjj; rewrite E; destruct (Nat.eqb_spec j j'); congruence.
  - intros b Hb. apply blocks_in in Hb as (p & m & mirror & -> & Hp). apply seq_NoDup.
  - apply rmatvec_applies.
  - apply matvec_applies.
Qed.
End Run.
End Orth.
