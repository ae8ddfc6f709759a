(** Adjointness and round trip of the spin-coupled basis maps. *)
From Coq Require Import List ZArith Lia Bool Arith Ring Sorting.Permutation.
From Verif Require Import Base BaseFacts AddrModel AddrFacts AddrSpec AddrProofs AddrBlocks TransFacts Star BasisModel BasisFacts.
Import ListNotations.
Local Open Scope nat_scope.

Lemma seq_grid n w : forall b acc,
  flat_map (fun t => map (fun q => acc + ((t - b) * w + q)) (seq 0 w)) (seq b n) = seq acc (n * w).
Proof.
  assert (G : forall m acc c z, map (fun q => acc + (c + q)) (seq z m) = seq (acc + c + z) m).
  { induction m as [|m IH]; intros acc c z; cbn [seq map]; auto. rewrite IH. f_equal; [lia|]. f_equal. lia. }
  induction n as [|n IH]; intros b acc; cbn [seq flat_map]; auto.
  rewrite Nat.sub_diag, Nat.mul_0_l, G, !Nat.add_0_r.
  replace (S n * w) with (w + n * w) by lia. rewrite seq_app. f_equal.
  rewrite <- (IH (S b) (acc + w)). rewrite !flat_map_concat_map. f_equal.
  apply map_ext_in. intros t Ht. apply in_seq in Ht. apply map_ext. intros q.
  replace (t - b) with (S (t - S b)) by lia. lia.
Qed.

Lemma map_list_prod {A B C} (f : A * B -> C) l1 l2 :
  map f (list_prod l1 l2) = flat_map (fun x => map (fun y => f (x, y)) l2) l1.
Proof.
  induction l1 as [|x l1 IH]; cbn; auto. rewrite map_app, map_map, IH. auto.
Qed.

Lemma NoDup_list_prod {A B} (l1 : list A) (l2 : list B) : NoDup l1 -> NoDup l2 -> NoDup (list_prod l1 l2).
Proof.
  intros H1 H2. induction H1 as [|x l1 Hx H1 IH]; cbn; [constructor|].
  apply NoDup_app_intro; auto.
  - apply FinFun.Injective_map_NoDup; auto. intros a b E. congruence.
  - intros [a b] Hin Hin'. apply in_map_iff in Hin as (c & E & _). injection E as <- <-.
    apply in_prod_iff in Hin' as [Hc _]. auto.
Qed.

Section Spin.
Variable K : star_ring.
Add Ring Kring5 : (sring K).
Implicit Types (m : manifold K) (mans : list (manifold K)).

Definition nm m := length (prod_idx_ m).
Definition width m := nt m * north1 m.
Definition offm mans p := before (map width mans) p.
(** umat is real *)
Definition umat_real m : Prop := forall mi t, mi < nm m -> t < nt m -> sconj (umat m mi t) = umat m mi t.

Definition sblk (mans : list (manifold K)) (pb : nat * manifold K) : blk K (nat * nat) (nat * nat) :=
  let '(p, m) := pb in
  mkBlk (list_prod (seq 0 (nm m)) (seq 0 (nraw1 m)))
        (fun ma => nth (snd ma) (nth (fst ma) (prod_idx_ m) []) 0)
        (list_prod (seq 0 (nt m)) (seq 0 (north1 m)))
        (fun tq => offm mans p + (fst tq * north1 m + snd tq))
        (fun ma tq => smul (umat m (fst ma) (fst tq)) (coef K m (snd ma) (snd tq))).

Section Run.
Variable mans : list (manifold K).
Variable nraw : nat.
Hypothesis Hok : Forall (man_ok K) mans.
Hypothesis Hu : Forall umat_real mans.
Hypothesis Hnd : NoDup (concat (flat_map prod_idx_ mans)).
Hypothesis Hlt : forall s, In s (concat (flat_map prod_idx_ mans)) -> s < nraw.

Definition sblocks := map (sblk mans) (combine (seq 0 (length mans)) mans).

Lemma sblocks_in b : In b sblocks -> exists p m, b = sblk mans (p, m) /\ nth_error mans p = Some m.
Proof.
  unfold sblocks. intros H. apply in_map_iff in H as ([p m] & <- & H).
  exists p, m. split; auto.
  assert (G : forall l b, In (p, m) (combine (seq b (length l)) l) ->
    b <= p /\ nth_error l (p - b) = Some m).
  { clear. induction l as [|x l IH]; intros b; cbn; [tauto|]. intros [H|H].
    - injection H as -> ->. rewrite Nat.sub_diag; auto.
    - apply IH in H as [H1 H2]. split; [lia|]. replace (p - b) with (S (p - S b)) by lia. auto. }
  apply G in H as [_ H]. rewrite Nat.sub_0_r in H. auto.
Qed.

Lemma map_nth_seq {A} (l : list A) d : map (fun i => nth i l d) (seq 0 (length l)) = l.
Proof.
  clear. induction l as [|x l IH]; cbn; auto. rewrite <- seq_shift, map_map. f_equal. exact IH.
Qed.

Lemma sblocks_I : flat_map (fun b => map (pI b) (bI b)) sblocks = concat (flat_map prod_idx_ mans).
Proof.
  assert (G : forall l b, Forall (man_ok K) l ->
    flat_map (fun b => map (pI b) (bI b)) (map (sblk mans) (combine (seq b (length l)) l))
    = concat (flat_map prod_idx_ l)).
  { clear. induction l as [|m l IH]; intros b HF; auto.
    inversion HF as [|? ? H1 H2]; subst. cbn [length seq combine map flat_map].
    rewrite IH, concat_app by auto. f_equal.
    cbn [sblk pI bI]. rewrite map_list_prod. cbn [fst snd].
    rewrite flat_map_concat_map. f_equal. unfold nm.
    rewrite <- (map_nth_seq (prod_idx_ m) []) at 2.
    apply map_ext_in. intros i Hi. apply in_seq in Hi.
    destruct H1 as [H1 _]. rewrite Forall_forall in H1.
    rewrite <- (H1 (nth i (prod_idx_ m) [])) by (apply nth_In; lia). apply map_nth_seq. }
  apply G; auto.
Qed.

Lemma offm_S p m : nth_error mans p = Some m -> offm mans (S p) = offm mans p + width m.
Proof.
  intros H. unfold offm. assert (Hl : p < length mans) by (apply nth_error_Some; congruence).
  rewrite before_S by (rewrite map_length; auto). f_equal.
  apply nth_error_nth. rewrite nth_error_map, H. auto.
Qed.

Lemma sblocks_J : flat_map (fun b => map (pJ b) (bJ b)) sblocks = seq 0 (fold_right Nat.add 0 (map width mans)).
Proof.
  unfold sblocks.
  assert (G : forall l b, (forall q m, nth_error l q = Some m -> nth_error mans (b + q) = Some m) ->
    flat_map (fun b => map (pJ b) (bJ b)) (map (sblk mans) (combine (seq b (length l)) l))
    = seq (offm mans b) (fold_right Nat.add 0 (map width l))).
  { clear. induction l as [|m l IH]; intros b H; auto.
    cbn [length seq combine map flat_map fold_right]. rewrite seq_app. f_equal.
    - cbn [sblk pJ bJ]. rewrite map_list_prod. cbn [fst snd]. unfold width.
      rewrite <- (seq_grid (nt m) (north1 m) 0). rewrite !flat_map_concat_map. f_equal.
      apply map_ext. intros t. rewrite Nat.sub_0_r. auto.
    - rewrite <- (offm_S b m); [|specialize (H 0 m eq_refl); rewrite Nat.add_0_r in H; auto].
      apply IH. intros q m' Hq. specialize (H (S q) m' Hq). replace (S b + q) with (b + S q) by lia. auto. }
  rewrite (G mans 0); auto.
Qed.

Lemma sc_mv_old raw : forall l i orth k, k < i -> sc_mv K l raw i orth k = orth k.
Proof.
  clear. induction l as [|m l IH]; intros i orth k Hk; cbn [sc_mv]; auto.
  rewrite IH by lia. unfold put_slice. destruct (Nat.leb_spec i k); [lia|auto].
Qed.

Lemma sc_mv_new raw : forall l b orth, (forall q m, nth_error l q = Some m -> nth_error mans (b + q) = Some m) ->
  forall q m k, nth_error l q = Some m -> k < width m ->
  sc_mv K l raw (offm mans b) orth (offm mans (b + q) + k) = sc_block K m raw k.
Proof.
  clear. induction l as [|m0 l IH]; intros b orth H q m k Hq Hk; [destruct q; discriminate|].
  assert (H0 := H 0 m0 eq_refl). rewrite Nat.add_0_r in H0.
  cbn [sc_mv]. fold (width m0). rewrite <- (offm_S b m0 H0).
  destruct q as [|q]; cbn [nth_error] in Hq.
  - injection Hq as ->. rewrite Nat.add_0_r. assert (E := offm_S b m H0).
    rewrite sc_mv_old by lia. unfold put_slice.
    destruct (Nat.leb_spec (offm mans b) (offm mans b + k)); [|lia].
    destruct (Nat.ltb_spec (offm mans b + k) (offm mans (S b))); [|lia]. cbn [andb]. f_equal. lia.
  - replace (b + S q) with (S b + q) by lia. apply IH; auto.
    intros q' m' Hq'. specialize (H (S q') m' Hq'). replace (S b + q') with (b + S q') by lia. auto.
Qed.

Lemma coef_T m x v q : man_ok K m -> q < north1 m ->
  x = xmat m ->
  bsum (seq 0 (nraw1 m)) (fun a => smul (coef K m a q) (v a))
  = match x with None => v q | Some x => xT_dot K x (nraw1 m) v q end.
Proof.
  clear. intros [_ Hx] Hq ->. unfold coef. destruct (xmat m) as [x|]; [reflexivity|].
  rewrite (bsum_single K (seq 0 (nraw1 m)) _ q).
  - rewrite Nat.eqb_refl. ring.
  - apply seq_NoDup.
  - apply in_seq. rewrite <- (Hx eq_refl). lia.
  - intros y _ Hne. destruct (Nat.eqb_spec y q); [congruence|ring].
Qed.

Lemma coef_conj m v a : man_ok K m -> a < nraw1 m ->
  bsum (seq 0 (north1 m)) (fun c => smul (sconj (coef K m a c)) (v c))
  = match xmat m with None => v a | Some x => xconj_dot K x (north1 m) v a end.
Proof.
  clear. intros [_ Hx] Ha. unfold coef. destruct (xmat m) as [x|]; [reflexivity|].
  rewrite (bsum_single K (seq 0 (north1 m)) _ a).
  - rewrite Nat.eqb_refl, sconj_1. ring.
  - apply seq_NoDup.
  - apply in_seq. rewrite (Hx eq_refl). lia.
  - intros c _ Hne. destruct (Nat.eqb_spec a c); [congruence|]. rewrite sconj_0. ring.
Qed.

Lemma man_ok_nth p m : nth_error mans p = Some m -> man_ok K m /\ umat_real m.
Proof.
  clear - Hok Hu. intros H. apply nth_error_In in H. rewrite Forall_forall in Hok, Hu. auto.
Qed.

Lemma sc_matvec_applies x : applies sblocks x (sc_matvec K mans x).
Proof.
  intros b j Hb Hj. apply sblocks_in in Hb as (p & m & -> & Hp). cbn [sblk bI pI bJ pJ bC] in *.
  destruct j as [t q]. apply in_prod_iff in Hj as [Ht Hq]. apply in_seq in Ht, Hq. cbn [fst snd].
  destruct (man_ok_nth p m Hp) as [Hm _].
  unfold sc_matvec.
  assert (Hw : t * north1 m + q < width m) by (unfold width; nia).
  rewrite (sc_mv_new x mans 0 _ ltac:(intros; auto) p m _ Hp Hw).
  unfold sc_block.
  assert (E1 : (t * north1 m + q) / north1 m = t) by (rewrite Nat.div_add_l by lia; rewrite Nat.div_small by lia; lia).
  assert (E2 : (t * north1 m + q) mod north1 m = q)
    by (rewrite Nat.add_comm, Nat.mod_add by lia; apply Nat.mod_small; lia).
  rewrite E1, E2, bsum_list_prod. apply bsum_ext. intros mi Hmi. cbn [fst snd].
  transitivity (smul (umat m mi t) (bsum (seq 0 (nraw1 m)) (fun a => smul (coef K m a q) (x (nth a (nth mi (prod_idx_ m) []) 0))))).
  - rewrite (coef_T m (xmat m) (fun a => x (nth a (nth mi (prod_idx_ m) []) 0)) q) by (auto; lia).
    destruct (xmat m); reflexivity.
  - rewrite bsum_mul_l. apply bsum_ext. intros; ring.
Qed.

Lemma sc_scatter_out m ux s : forall mirrors mi raw, (forall b, In b mirrors -> ~ In s b) ->
  sc_scatter K m mirrors mi ux raw s = raw s.
Proof.
  clear. induction mirrors as [|mirror r IH]; intros mi raw H; cbn [sc_scatter]; auto.
  rewrite IH by (intros; apply H; right; auto). apply scatter_notin. apply H. left; auto.
Qed.

Lemma sc_scatter_in m ux : forall mirrors mi raw q mirror a s, NoDup (concat mirrors) ->
  nth_error mirrors q = Some mirror -> nth_error mirror a = Some s ->
  sc_scatter K m mirrors mi ux raw s = ux (mi + q) a.
Proof.
  clear. induction mirrors as [|m0 r IH]; intros mi raw q mirror a s Hn Hq Ha; [destruct q; discriminate|].
  cbn [concat] in Hn. apply NoDup_app_inv in Hn as (N1 & N2 & N3). cbn [sc_scatter].
  destruct q as [|q]; cbn [nth_error] in Hq.
  - injection Hq as ->. rewrite sc_scatter_out.
    + rewrite (scatter_in K mirror _ 0 _ a s N1 Ha), Nat.add_0_r. auto.
    + intros b Hb Hc. apply (N3 s); [apply nth_error_In in Ha; auto|]. apply in_concat. eauto.
  - replace (mi + S q) with (S mi + q) by lia. eapply IH; eauto.
Qed.

Lemma sc_rmv_out orth s : forall l i raw, ~ In s (concat (flat_map prod_idx_ l)) ->
  sc_rmv K l orth i raw s = raw s.
Proof.
  clear. induction l as [|m l IH]; intros i raw H; cbn [sc_rmv]; auto.
  cbn [flat_map] in H. rewrite concat_app in H. rewrite in_app_iff in H. 
  rewrite IH by tauto. apply sc_scatter_out. intros b Hb Hc. apply H. left. apply in_concat. eauto.
Qed.

Lemma sc_rmv_in orth : forall l b raw, (forall q m, nth_error l q = Some m -> nth_error mans (b + q) = Some m) ->
  NoDup (concat (flat_map prod_idx_ l)) ->
  forall q m mi mirror a s, nth_error l q = Some m -> nth_error (prod_idx_ m) mi = Some mirror ->
  nth_error mirror a = Some s ->
  sc_rmv K l orth (offm mans b) raw s = sc_rblock K m (offm mans (b + q)) orth mi a.
Proof.
  clear. induction l as [|m0 l IH]; intros b raw H Hn q m mi mirror a s Hq Hmi Ha; [destruct q; discriminate|].
  assert (H0 := H 0 m0 eq_refl). rewrite Nat.add_0_r in H0.
  cbn [flat_map] in Hn. rewrite concat_app in Hn. apply NoDup_app_inv in Hn as (N1 & N2 & N3).
  cbn [sc_rmv]. fold (width m0). rewrite <- (offm_S b m0 H0).
  destruct q as [|q]; cbn [nth_error] in Hq.
  - injection Hq as ->. rewrite Nat.add_0_r. rewrite sc_rmv_out.
    + rewrite (sc_scatter_in m _ (prod_idx_ m) 0 raw mi mirror a s N1 Hmi Ha). auto.
    + apply N3. apply in_concat. exists mirror. split; [apply nth_error_In in Hmi; auto|apply nth_error_In in Ha; auto].
  - replace (b + S q) with (S b + q) by lia. eapply IH; eauto.
    intros q' m' Hq'. specialize (H (S q') m' Hq'). replace (S b + q') with (b + S q') by lia. auto.
Qed.

Lemma sc_rmatvec_applies y : applies_back sblocks y (sc_rmatvec K mans y).
Proof.
  split.
  - intros b i Hb Hi. apply sblocks_in in Hb as (p & m & -> & Hp). cbn [sblk bI pI bJ pJ bC] in *.
    destruct i as [mi a]. apply in_prod_iff in Hi as [Hmi Ha]. apply in_seq in Hmi, Ha. cbn [fst snd].
    destruct (man_ok_nth p m Hp) as [Hm Hr].
    assert (Hmm : nth_error (prod_idx_ m) mi = Some (nth mi (prod_idx_ m) []))
      by (apply nth_error_nth_some; unfold nm in *; lia).
    assert (Hla : length (nth mi (prod_idx_ m) []) = nraw1 m).
    { destruct Hm as [Hm _]. rewrite Forall_forall in Hm. apply Hm. apply nth_error_In in Hmm. auto. }
    unfold sc_rmatvec.
    rewrite (sc_rmv_in y mans 0 _ ltac:(intros; auto) Hnd p m mi _ a _ Hp Hmm) by
      (apply nth_error_nth_some; lia).
    cbn [Nat.add]. rewrite bsum_list_prod. cbn [fst snd].
    rewrite bsum_swap.
    transitivity (bsum (seq 0 (north1 m)) (fun c => smul (sconj (coef K m a c))
      (bsum (seq 0 (nt m)) (fun t => smul (umat m mi t) (y (offm mans p + (t * north1 m + c))))))).
    + rewrite (coef_conj m) by (auto; lia). unfold sc_rblock. destruct (xmat m); reflexivity.
    + apply bsum_ext. intros c Hc. rewrite bsum_mul_l. apply bsum_ext. intros t Ht. apply in_seq in Ht.
      rewrite sconj_mul, Hr by lia. ring.
  - intros s Hs. rewrite sblocks_I in Hs. unfold sc_rmatvec. rewrite sc_rmv_out; auto.
Qed.

Lemma sc_adjoint x y :
  bsum (seq 0 (fold_right Nat.add 0 (map width mans))) (fun k => smul (sconj (y k)) (sc_matvec K mans x k))
  = bsum (seq 0 nraw) (fun s => smul (sconj (sc_rmatvec K mans y s)) (x s)).
Proof.
  apply (adjoint_generic K sblocks).
  - rewrite sblocks_J. apply Permutation_refl.
  - rewrite sblocks_I; auto.
  - rewrite sblocks_I; auto.
  - apply sc_matvec_applies.
  - apply sc_rmatvec_applies.
Qed.

Lemma sc_round_trip y :
  (forall m, In m mans -> forall c c', c < north1 m -> c' < north1 m ->
     forall x, xmat m = Some x ->
     bsum (seq 0 (nraw1 m)) (fun a => smul (x a c) (sconj (x a c'))) = if c =? c' then s1 else s0) ->
  (forall m, In m mans -> forall t t', t < nt m -> t' < nt m ->
     bsum (seq 0 (nm m)) (fun mi => smul (umat m mi t) (umat m mi t')) = if t =? t' then s1 else s0) ->
  forall k, k < fold_right Nat.add 0 (map width mans) -> sc_matvec K mans (sc_rmatvec K mans y) k = y k.
Proof.
  intros Hx Huu k Hk.
  apply (round_trip_generic K sblocks (fold_right Nat.add 0 (map width mans))) with (By_ := sc_rmatvec K mans y); auto.
  - rewrite sblocks_J. apply Permutation_refl.
  - intros b j j' Hb Hj Hj'. apply sblocks_in in Hb as (p & m & -> & Hp). cbn [sblk bI bJ bC] in *.
    destruct j as [t q], j' as [t' q'].
    apply in_prod_iff in Hj as [Ht Hq], Hj' as [Ht' Hq']. apply in_seq in Ht, Hq, Ht', Hq'. cbn [fst snd].
    destruct (man_ok_nth p m Hp) as [Hm Hr]. apply nth_error_In in Hp.
    assert (E : bsum (seq 0 (nraw1 m)) (fun i => smul (coef K m i q) (sconj (coef K m i q'))) = if q =? q' then s1 else s0).
    { rewrite (coef_T m (xmat m) (fun i => sconj (coef K m i q')) q) by (auto; lia).
      destruct (xmat m) as [x|] eqn:E.
      - unfold xT_dot. rewrite <- (Hx m Hp q q') with (x := x) by (auto; lia).
        apply bsum_ext. intros. unfold coef. rewrite E. auto.
      - unfold coef. rewrite E. destruct (q =? q'); [apply sconj_1|apply sconj_0]. }
    assert (E2 : bsum (list_prod (seq 0 (nm m)) (seq 0 (nraw1 m))) (fun i =>
        smul (smul (umat m (fst i) t) (coef K m (snd i) q)) (sconj (smul (umat m (fst i) t') (coef K m (snd i) q'))))
      = smul (if t =? t' then s1 else s0) (if q =? q' then s1 else s0)).
    { rewrite bsum_list_prod. cbn [fst snd]. rewrite <- (Huu m Hp t t') by lia. rewrite <- E, bsum_mul_r.
      apply bsum_ext. intros mi Hmi. apply in_seq in Hmi. rewrite bsum_mul_l. apply bsum_ext. intros a _.
      rewrite sconj_mul, Hr by lia. ring. }
    split; intros Hjj; rewrite E2.
    + injection Hjj as <- <-. rewrite !Nat.eqb_refl. ring.
    + destruct (Nat.eqb_spec t t'), (Nat.eqb_spec q q'); try ring. congruence.
  - intros b Hb. apply sblocks_in in Hb as (p & m & -> & Hp). apply NoDup_list_prod; apply seq_NoDup.
  - apply sc_rmatvec_applies.
  - apply sc_matvec_applies.
Qed.
End Run.
End Spin.
