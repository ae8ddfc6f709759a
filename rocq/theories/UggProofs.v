(** Facts about the packing of LASSCF variables. *)
From Coq Require Import List Arith Bool Lia.
From Verif Require Import Base UggModel.
Import ListNotations.

(** ** the class of an orbital: the number of whole spaces (inactive, fragments) before it *)
Fixpoint cls (sizes : list nat) (p : nat) : nat :=
  match sizes with
  | [] => 0
  | n :: l => if p <? n then 0 else S (cls l (p - n))
  end.

Lemma cumsum_gen l : forall acc out,
  snd (fold_left (fun st x => let '(acc, out) := st in (acc + x, out ++ [acc + x])) l (acc, out))
  = out ++ (fix go a l := match l with [] => [] | x :: l => (a + x) :: go (a + x) l end) acc l.
Proof.
  induction l as [|x l IH]; intros acc out; cbn [fold_left].
  - cbn. now rewrite app_nil_r.
  - rewrite IH. now rewrite <- app_assoc.
Qed.
Lemma fold_add l : forall a, fold_left Nat.add l a = a + fold_right Nat.add 0 l.
Proof. induction l as [|x l IH]; intros a; cbn [fold_left fold_right]; [lia | rewrite IH; lia]. Qed.
Lemma cumsum0_nth l : forall s i, i <= length l ->
  nth i (cumsum0 s l) 0 = s + fold_right Nat.add 0 (firstn i l).
Proof.
  unfold cumsum0. intros s i. rewrite cumsum_gen. cbn [app].
  revert s i. induction l as [|x l IH]; intros s [|i] H; cbn [length] in H; cbn [firstn fold_right nth]; try lia.
  rewrite Nat.add_assoc, <- (IH (s + x) i) by lia.
  destruct i; reflexivity.
Qed.

Definition start (l : list nat) (i : nat) : nat := fold_right Nat.add 0 (firstn i l).
Lemma start_cons x l i : start (x :: l) (S i) = x + start l i.
Proof. reflexivity. Qed.
Lemma start_S l : forall i, i < length l -> start l (S i) = start l i + nth i l 0.
Proof.
  induction l as [|x l IH]; intros i H; [cbn in H; lia|]. rewrite start_cons. destruct i as [|i].
  - unfold start. cbn. lia.
  - rewrite start_cons, IH by (cbn in H; lia). cbn [nth]. lia.
Qed.
(** where the class i is *)
Lemma cls_lt l : forall p i, i < length l -> (cls l p = i <-> start l i <= p < start l (S i)).
Proof.
  induction l as [|x l IH]; intros p i H; [cbn in H; lia|]. cbn [cls].
  destruct i as [|i].
  - unfold start. cbn [firstn fold_right]. destruct (p <? x) eqn:E; [apply Nat.ltb_lt in E | apply Nat.ltb_ge in E]; split; try lia.
  - cbn [length] in H. assert (Hi : i < length l) by lia. specialize (IH (p - x) i Hi).
    assert (A : start (x :: l) (S i) = x + start l i) by reflexivity.
    assert (B : start (x :: l) (S (S i)) = x + start l (S i)) by reflexivity.
    rewrite A, B. destruct (p <? x) eqn:E; [apply Nat.ltb_lt in E | apply Nat.ltb_ge in E]; split; try lia.
Qed.
Lemma cls_le l : forall p, cls l p <= length l.
Proof. induction l as [|x l IH]; intros p; cbn [cls length]; [lia|]. destruct (p <? x); [lia|]. specialize (IH (p - x)). lia. Qed.
Lemma cls_last l : forall p, cls l p = length l <-> start l (length l) <= p.
Proof.
  induction l as [|x l IH]; intros p; [cbn; split; lia|]. cbn [cls length].
  assert (A : start (x :: l) (S (length l)) = x + start l (length l)) by reflexivity. rewrite A.
  specialize (IH (p - x)).
  destruct (p <? x) eqn:E; [apply Nat.ltb_lt in E | apply Nat.ltb_ge in E]; split; try lia.
Qed.
Lemma start_mono l : forall i, start l i <= start l (length l).
Proof.
  unfold start. induction l as [|x l IH]; intros [|i]; cbn [firstn length fold_right]; try lia. specialize (IH i). lia.
Qed.

Lemma in_block_iff a b c d p q : in_block a b c d p q = true <-> (a <= p < b /\ c <= q < d).
Proof. unfold in_block. rewrite !andb_true_iff, !Nat.leb_le, !Nat.ltb_lt. lia. Qed.

Lemma mask_iff nmo ncore ncas p q : p < nmo ->
  (all_nonredundant_idx nmo ncore ncas p q = true <-> cls (ncore :: ncas) q < cls (ncore :: ncas) p).
Proof.
  intros Hp. unfold all_nonredundant_idx. cbn zeta. rewrite fold_add.
  assert (HL : fold_right Nat.add 0 ncas = start ncas (length ncas)) by (unfold start; now rewrite firstn_all).
  rewrite HL, !orb_true_iff, !in_block_iff, existsb_exists.
  rewrite !cumsum0_nth by lia. fold (start ncas (length ncas)) (start ncas 0).
  assert (H0 : start ncas 0 = 0) by reflexivity. rewrite H0.
  cbn [cls].
  split.
  - intros [[[A|A]|A]|(i1 & I1 & A)].
    + destruct (q <? ncore) eqn:Eq, (p <? ncore) eqn:Ep; rewrite ?Nat.ltb_lt, ?Nat.ltb_ge in *; lia.
    + destruct (q <? ncore) eqn:Eq, (p <? ncore) eqn:Ep; rewrite ?Nat.ltb_lt, ?Nat.ltb_ge in *; try lia.
      pose proof (cls_last ncas (p - ncore)) as [_ L1]. pose proof (cls_last ncas (q - ncore)) as [L2 _].
      pose proof (cls_le ncas (q - ncore)). lia.
    + destruct (q <? ncore) eqn:Eq, (p <? ncore) eqn:Ep; rewrite ?Nat.ltb_lt, ?Nat.ltb_ge in *; lia.
    + apply in_seq in I1. rewrite existsb_exists in A. destruct A as (i2 & I2 & A). apply in_seq in I2.
      rewrite in_block_iff in A. rewrite !cumsum0_nth in A by lia.
      fold (start ncas i1) (start ncas i2) (start ncas (S i1)) (start ncas (S i2)) in A.
      destruct (q <? ncore) eqn:Eq, (p <? ncore) eqn:Ep; rewrite ?Nat.ltb_lt, ?Nat.ltb_ge in *; try lia.
      pose proof (cls_lt ncas (p - ncore) i1 ltac:(lia)) as [_ L1].
      pose proof (cls_lt ncas (q - ncore) i2 ltac:(lia)) as [_ L2]. lia.
  - intros L. destruct (q <? ncore) eqn:Eq, (p <? ncore) eqn:Ep; rewrite ?Nat.ltb_lt, ?Nat.ltb_ge in *; try lia.
    pose proof (cls_le ncas (p - ncore)) as LP.
    destruct (Nat.eq_dec (cls ncas (p - ncore)) (length ncas)) as [Ev|Nv].
    + left. left. right.
      pose proof (cls_last ncas (p - ncore)) as [L1 _]. pose proof (cls_last ncas (q - ncore)) as [_ L2].
      specialize (L1 Ev). destruct (le_lt_dec (start ncas (length ncas)) (q - ncore)) as [B|B]; [specialize (L2 B)|]; lia.
    + right. exists (cls ncas (p - ncore)). split; [apply in_seq; lia|].
      rewrite existsb_exists. exists (cls ncas (q - ncore)). split; [apply in_seq; lia|].
      rewrite in_block_iff. rewrite !cumsum0_nth by lia.
      fold (start ncas (cls ncas (p - ncore))) (start ncas (cls ncas (q - ncore)))
           (start ncas (S (cls ncas (p - ncore)))) (start ncas (S (cls ncas (q - ncore)))).
      pose proof (cls_lt ncas (p - ncore) (cls ncas (p - ncore)) ltac:(lia)) as [L1 _].
      pose proof (cls_lt ncas (q - ncore) (cls ncas (q - ncore)) ltac:(lia)) as [L2 _].
      specialize (L1 eq_refl). specialize (L2 eq_refl). lia.
Qed.

(** ** counting *)
Fixpoint pairs (sizes : list nat) : nat :=
  match sizes with [] => 0 | n :: l => n * fold_right Nat.add 0 l + pairs l end.
Definition count (f : nat -> bool) (n : nat) : nat := length (filter f (seq 0 n)).
Definition count2 (f : nat -> nat -> bool) (n : nat) : nat :=
  fold_right Nat.add 0 (map (fun p => count (f p) n) (seq 0 n)).
Lemma filter_map_len {A B} (g : A -> B) f l : length (filter f (map g l)) = length (filter (fun x => f (g x)) l).
Proof. induction l as [|a l IH]; cbn; [reflexivity|]. destruct (f (g a)); cbn; now rewrite IH. Qed.
Lemma positions_count nmo idx : length (positions nmo idx) = count2 idx nmo.
Proof.
  unfold positions, count2. generalize (seq 0 nmo) at 1 3 as l.
  induction l as [|p l IH]; cbn [list_prod map fold_right filter]; [reflexivity|].
  rewrite filter_app, app_length, IH, filter_map_len. reflexivity.
Qed.
Lemma count_ext f g n : (forall q, q < n -> f q = g q) -> count f n = count g n.
Proof.
  intros H. unfold count. f_equal. apply filter_ext_in. intros q Hq. apply H. apply in_seq in Hq. lia.
Qed.
Lemma seq_shift_map n m : seq n m = map (fun x => n + x) (seq 0 m).
Proof.
  revert n. induction m as [|m IH]; intros n; [reflexivity|]. cbn [seq map]. rewrite Nat.add_0_r. f_equal.
  rewrite (IH (S n)), (IH 1), map_map. apply map_ext. intros. lia.
Qed.
Lemma count_split f n m : count f (n + m) = count f n + count (fun x => f (n + x)) m.
Proof.
  unfold count. rewrite seq_app, filter_app, app_length. f_equal. cbn [Nat.add].
  rewrite (seq_shift_map n m), filter_map_len. reflexivity.
Qed.
Lemma count_const (b : bool) n : count (fun _ => b) n = if b then n else 0.
Proof.
  unfold count. destruct b.
  - rewrite <- (seq_length n 0) at 2. f_equal. induction (seq 0 n) as [|a l IH]; cbn; [reflexivity | now rewrite IH].
  - induction (seq 0 n) as [|a l IH]; cbn; auto.
Qed.
Lemma sum_ext (f g : nat -> nat) n : (forall p, p < n -> f p = g p) ->
  fold_right Nat.add 0 (map f (seq 0 n)) = fold_right Nat.add 0 (map g (seq 0 n)).
Proof. intros H. f_equal. apply map_ext_in. intros p Hp. apply H. apply in_seq in Hp. lia. Qed.
Lemma sum_app a b : fold_right Nat.add 0 (a ++ b) = fold_right Nat.add 0 a + fold_right Nat.add 0 b.
Proof. induction a as [|x a IH]; cbn; [reflexivity | rewrite IH; lia]. Qed.
Lemma sum_plus (f g : nat -> nat) l :
  fold_right Nat.add 0 (map (fun p => f p + g p) l) = fold_right Nat.add 0 (map f l) + fold_right Nat.add 0 (map g l).
Proof. induction l as [|x l IH]; cbn; [reflexivity | rewrite IH; lia]. Qed.
Lemma sum_const (c : nat) n : fold_right Nat.add 0 (map (fun _ => c) (seq 0 n)) = n * c.
Proof. generalize 0 at 2. induction n as [|n IH]; intros s; cbn [seq map fold_right]; [reflexivity | rewrite IH; lia]. Qed.
Lemma count2_ext f g n : (forall p q, p < n -> q < n -> f p q = g p q) -> count2 f n = count2 g n.
Proof. intros H. unfold count2. apply sum_ext. intros p Hp. apply count_ext. intros q Hq. now apply H. Qed.
Lemma count2_cls l : count2 (fun p q => cls l q <? cls l p) (fold_right Nat.add 0 l) = pairs l.
Proof.
  induction l as [|n l IH]; [reflexivity|]. cbn [fold_right pairs]. set (m := fold_right Nat.add 0 l) in *.
  unfold count2. rewrite seq_app, map_app, sum_app. cbn [Nat.add].
  rewrite (sum_ext _ (fun _ => 0)).
  2:{ intros p Hp. rewrite (count_ext _ (fun _ => false)).
      - apply (count_const false).
      - intros q _. cbn [cls]. replace (p <? n) with true by (symmetry; apply Nat.ltb_lt; lia).
        destruct (q <? n); reflexivity. }
  rewrite sum_const, (seq_shift_map n m), map_map.
  rewrite (sum_ext _ (fun p => n + count (fun q => cls l q <? cls l p) m)).
  2:{ intros p Hp. rewrite count_split. f_equal.
      - rewrite (count_ext _ (fun _ => true)); [apply (count_const true)|].
        intros q Hq. cbn [cls]. replace (q <? n) with true by (symmetry; apply Nat.ltb_lt; lia).
        replace (n + p <? n) with false by (symmetry; apply Nat.ltb_ge; lia). reflexivity.
      - apply count_ext. intros q _. cbn [cls].
        replace (n + p <? n) with false by (symmetry; apply Nat.ltb_ge; lia).
        replace (n + q <? n) with false by (symmetry; apply Nat.ltb_ge; lia).
        replace (n + p - n) with p by lia. replace (n + q - n) with q by lia. reflexivity. }
  rewrite sum_plus, sum_const. unfold count2 in IH. rewrite IH. lia.
Qed.
Lemma cls_app_one l v p : p < fold_right Nat.add 0 l + v -> cls (l ++ [v]) p = cls l p.
Proof.
  revert p. induction l as [|x l IH]; intros p H; cbn [app cls fold_right] in *.
  - replace (p <? v) with true by (symmetry; apply Nat.ltb_lt; lia). reflexivity.
  - destruct (p <? x) eqn:E; [reflexivity|]. apply Nat.ltb_ge in E. rewrite IH by lia. reflexivity.
Qed.

Section P.
Context {K : Type}.
Variable k0 : K.
Variable nmo : nat.
Variable idx : nat -> nat -> bool.
Notation tf := (@tf K).

Lemma positions_in p q : In (p, q) (positions nmo idx) <-> (p < nmo /\ q < nmo /\ idx p q = true).
Proof.
  unfold positions. rewrite filter_In, in_prod_iff, !in_seq. cbn [fst snd]. intuition lia.
Qed.
Lemma nodup_prod {A B} (l : list A) (m : list B) : NoDup l -> NoDup m -> NoDup (list_prod l m).
Proof.
  intros Hl Hm. induction Hl as [|a l Na Hl IH]; cbn [list_prod]; [constructor|].
  assert (HM : NoDup (map (pair a) m)).
  { clear -Hm. induction Hm as [|b m Nb Hm IH]; cbn; constructor; auto.
    intros C. apply in_map_iff in C. destruct C as (y & E & I). injection E as ->. contradiction. }
  revert HM. assert (HD : forall x, In x (map (pair a) m) -> ~ In x (list_prod l m)).
  { intros [x y] I J. apply in_map_iff in I. destruct I as (z & E & _). injection E as <- <-.
    apply in_prod_iff in J. tauto. }
  induction (map (pair a) m) as [|z r IHr]; cbn; intros HM; [exact IH|].
  inversion HM; subst. constructor.
  - rewrite in_app_iff. intros [C|C]; [contradiction | exact (HD z (or_introl eq_refl) C)].
  - apply IHr; auto. intros x I. apply HD. now right.
Qed.
Lemma positions_nodup : NoDup (positions nmo idx).
Proof. apply NoDup_filter, nodup_prod; apply seq_NoDup. Qed.

Lemma index_from_none l : forall n p q, ~ In (p, q) l -> index_from n l p q = None.
Proof.
  induction l as [|[a b] l IH]; intros n p q H; cbn [index_from fst snd]; [reflexivity|].
  destruct ((a =? p) && (b =? q)) eqn:E.
  - apply andb_true_iff in E. rewrite !Nat.eqb_eq in E. destruct E as [-> ->]. exfalso. apply H. now left.
  - apply IH. intros C. apply H. now right.
Qed.
Lemma index_from_nth l : NoDup l -> forall n i p q, nth_error l i = Some (p, q) -> index_from n l p q = Some (n + i).
Proof.
  induction 1 as [|[a b] l Na ND IH]; intros n [|i] p q E; cbn [nth_error] in E; try discriminate; cbn [index_from fst snd].
  - injection E as -> ->. rewrite !Nat.eqb_refl. cbn. f_equal. lia.
  - destruct ((a =? p) && (b =? q)) eqn:F.
    + apply andb_true_iff in F. rewrite !Nat.eqb_eq in F. destruct F as [-> ->].
      exfalso. apply Na. eapply nth_error_In, E.
    + rewrite (IH (S n) i p q E). f_equal. lia.
Qed.
Lemma scatter_out x p q : ~ (p < nmo /\ q < nmo /\ idx p q = true) -> scatter k0 nmo idx x p q = k0.
Proof. intros H. unfold scatter. rewrite index_from_none; [reflexivity | now rewrite positions_in]. Qed.
Lemma scatter_nth x i p q : nth_error (positions nmo idx) i = Some (p, q) -> scatter k0 nmo idx x p q = nth i x k0.
Proof. intros H. unfold scatter. now rewrite (index_from_nth _ positions_nodup 0 i p q H). Qed.
Lemma gather_scatter x : length x = nvar_orb nmo idx ->
  map (fun pq => scatter k0 nmo idx x (fst pq) (snd pq)) (positions nmo idx) = x.
Proof.
  intros L. apply nth_ext with (d := k0) (d' := k0); [now rewrite map_length|].
  intros n Hn. rewrite map_length in Hn.
  destruct (nth_error (positions nmo idx) n) as [[p q]|] eqn:E; [|apply nth_error_None in E; lia].
  erewrite (nth_error_nth (map _ _)) by (rewrite nth_error_map, E; reflexivity).
  cbn [fst snd]. now apply scatter_nth.
Qed.
Lemma scatter_gather (kappa : nat -> nat -> K) p q : p < nmo -> q < nmo -> idx p q = true ->
  scatter k0 nmo idx (map (fun pq => kappa (fst pq) (snd pq)) (positions nmo idx)) p q = kappa p q.
Proof.
  intros Hp Hq Hi. assert (I : In (p, q) (positions nmo idx)) by (apply positions_in; auto).
  apply In_nth_error in I. destruct I as [i I]. rewrite (scatter_nth _ i _ _ I).
  erewrite nth_error_nth by (rewrite nth_error_map, I; reflexivity). reflexivity.
Qed.

(** ** the CI part *)
Variable frozen_ci : list nat.
Notation frz := (frz frozen_ci).
Definition ci_part (i : nat) (trans_frag : list tf) (ci_frag : list (list K)) : list K :=
  if frz i then [] else flat_map (fun tc => det2csf (fst tc) (snd tc)) (combine trans_frag ci_frag).
Fixpoint ci_vars (i : nat) (tfs : list (list tf)) (ci : list (list (list K))) : list K :=
  match tfs, ci with
  | t :: tfs, c :: ci => ci_part i t c ++ ci_vars (S i) tfs ci
  | _, _ => []
  end.
Lemma fold_app {A B} (f : A -> list B) l : forall x, fold_left (fun x a => x ++ f a) l x = x ++ flat_map f l.
Proof.
  induction l as [|a l IH]; intros x; cbn [fold_left flat_map]; [now rewrite app_nil_r|].
  now rewrite IH, app_assoc.
Qed.
Lemma pack_fold tfs : forall i ci x,
  fold_left (fun x ix =>
    let '(i, (trans_frag, ci_frag)) := ix in
    if frz i then x
    else fold_left (fun x tc => x ++ det2csf (fst tc) (snd tc)) (combine trans_frag ci_frag) x)
    (combine (seq i (length tfs)) (combine tfs ci)) x = x ++ ci_vars i tfs ci.
Proof.
  induction tfs as [|t tfs IH]; intros i [|c ci] x; cbn [length seq combine fold_left ci_vars]; try now rewrite app_nil_r.
  rewrite IH, app_assoc. f_equal. unfold ci_part. destruct (frz i); [now rewrite app_nil_r|].
  apply fold_app.
Qed.

Fixpoint nci (i : nat) (tfs : list (list tf)) : nat :=
  match tfs with
  | [] => 0
  | t :: tfs => (if frz i then 0 else sumN (map ncsf t)) + nci (S i) tfs
  end.
Lemma ncsf_sub_sum tfs : forall i,
  sumN (map sumN (map (fun ix => map ncsf (snd ix)) (filter (fun ix => negb (frz (fst ix))) (combine (seq i (length tfs)) tfs))))
  = nci i tfs.
Proof.
  induction tfs as [|t tfs IH]; intros i; cbn [length seq combine filter nci]; [reflexivity|].
  cbn [fst]. destruct (frz i); cbn [negb map sumN fold_right snd]; rewrite <- (IH (S i)); reflexivity.
Qed.
Lemma nvar_tot_eq tfs : nvar_tot nmo idx tfs frozen_ci = nvar_orb nmo idx + nci 0 tfs.
Proof. unfold nvar_tot, ncsf_sub. now rewrite ncsf_sub_sum. Qed.

Record tf_ok (t : tf) : Prop := mkTfOk {
  tf_det : forall c, length c = ncsf t -> length (csf2det t c) = ndet t;
  tf_csf : forall d, length d = ndet t -> length (det2csf t d) = ncsf t;
  tf_inv : forall c, length c = ncsf t -> det2csf t (csf2det t c) = c }.

(** a vector of CI variables, divided *)
Lemma unpack_frag_ok l : Forall tf_ok l -> forall y, sumN (map ncsf l) <= length y ->
  exists c, unpack_frag k0 false l y = Ok (c, skipn (sumN (map ncsf l)) y) /\
    Forall2 (fun t v => length v = ndet t) l c /\
    flat_map (fun tc => det2csf (fst tc) (snd tc)) (combine l c) = firstn (sumN (map ncsf l)) y.
Proof.
  induction 1 as [|t l Ht Hl IH]; intros y Ly; cbn [map sumN fold_right unpack_frag] in *.
  - exists []. cbn. auto.
  - unfold sumN in *. set (m := fold_right Nat.add 0 (map ncsf l)) in *.
    replace (length y <? ncsf t) with false by (symmetry; apply Nat.ltb_ge; lia).
    destruct (IH (skipn (ncsf t) y)) as (c & E & S & F). { rewrite skipn_length. lia. }
    rewrite E. cbn [bind fst snd]. eexists. split; [|split].
    + f_equal. f_equal. rewrite Nat.add_comm. clear. revert y. generalize (ncsf t) as n.
      induction n as [|n IH]; intros y; cbn [skipn]; [now rewrite Nat.add_0_r|].
      destruct y as [|a y]; [now rewrite !skipn_nil|]. rewrite Nat.add_succ_r. cbn [skipn]. apply IH.
    + constructor; [|exact S]. apply (tf_det t Ht). rewrite firstn_length. lia.
    + cbn [combine flat_map fst snd]. rewrite (tf_inv t Ht) by (rewrite firstn_length; lia). rewrite F.
      clear -Ly. revert y Ly. generalize (ncsf t) as n.
      induction n as [|n IH]; intros y Ly; cbn [firstn skipn app Nat.add]; [reflexivity|].
      destruct y as [|a y]; [cbn in Ly; lia|]. cbn [firstn skipn app length] in *. f_equal. apply IH. lia.
Qed.
Lemma unpack_frag_frozen l : forall y, unpack_frag k0 true l y = Ok (map (fun t => repeat k0 (ndet t)) l, y).
Proof. induction l as [|t l IH]; intros y; cbn [unpack_frag map]; [reflexivity|]. now rewrite IH. Qed.

Definition zeros_of (l : list tf) : list (list K) := map (fun t => repeat k0 (ndet t)) l.
Lemma unpack_ci_ok tfs : Forall (Forall tf_ok) tfs -> forall i y, nci i tfs <= length y ->
  exists c, unpack_ci k0 frozen_ci i tfs y = Ok c /\
    Forall2 (Forall2 (fun t v => length v = ndet t)) tfs c /\
    ci_vars i tfs c = firstn (nci i tfs) y /\
    (forall j l, frz (i + j) = true -> nth_error tfs j = Some l -> nth_error c j = Some (zeros_of l)).
Proof.
  induction 1 as [|l tfs Hl Ht IH]; intros i y Ly; cbn [nci unpack_ci ci_vars] in *.
  - exists []. repeat split; auto. intros [|j] l _ E; discriminate.
  - destruct (frz i) eqn:Fi.
    + rewrite unpack_frag_frozen. cbn [bind snd fst].
      destruct (IH (S i) y) as (c & E & S & V & Z); [lia|]. rewrite E. cbn [bind].
      eexists. split; [reflexivity|]. split; [|split].
      * constructor; [|exact S]. clear. induction l as [|t l IH]; cbn [map]; constructor; [apply repeat_length | exact IH].
      * unfold ci_part. rewrite Fi. cbn [app Nat.add]. exact V.
      * intros [|j] l' F N; cbn [nth_error] in *; [now injection N as <-|]. apply Z; [|exact N]. now rewrite Nat.add_succ_comm.
    + destruct (unpack_frag_ok l Hl y) as (c1 & E1 & S1 & F1); [lia|]. rewrite E1. cbn [bind snd fst].
      destruct (IH (S i) (skipn (sumN (map ncsf l)) y)) as (c & E & S & V & Z). { rewrite skipn_length. lia. }
      rewrite E. cbn [bind]. eexists. split; [reflexivity|]. split; [|split].
      * constructor; assumption.
      * unfold ci_part. rewrite Fi, F1, V. clear -Ly. revert y Ly. generalize (sumN (map ncsf l)) as n.
        induction n as [|n IH]; intros y Ly; cbn [firstn skipn app Nat.add]; [reflexivity|].
        destruct y as [|a y]; [cbn in Ly; lia|]. cbn [firstn skipn app length] in *. f_equal. apply IH. lia.
      * intros [|j] l' F N; cbn [nth_error] in *.
        -- rewrite Nat.add_0_r in F. congruence.
        -- apply Z; [|exact N]. now rewrite Nat.add_succ_comm.
Qed.
(** CI vectors in the span of the CSFs *)
Definition in_span (t : tf) (v : list K) : Prop := length v = ndet t /\ csf2det t (det2csf t v) = v.
Lemma frag_len l c : Forall tf_ok l -> Forall2 (fun t v => length v = ndet t) l c ->
  length (flat_map (fun tc => det2csf (fst tc) (snd tc)) (combine l c)) = sumN (map ncsf l).
Proof.
  intros Hl H. revert Hl. induction H as [|t v l c Hv H IH]; intros Hl; [reflexivity|]. inversion Hl; subst.
  cbn [combine flat_map fst snd map]. change (sumN (ncsf t :: map ncsf l)) with (ncsf t + sumN (map ncsf l)).
  rewrite app_length, IH by assumption. f_equal. now apply tf_csf.
Qed.
Lemma unpack_frag_pack l c : Forall tf_ok l -> Forall2 in_span l c -> forall z,
  unpack_frag k0 false l (flat_map (fun tc => det2csf (fst tc) (snd tc)) (combine l c) ++ z) = Ok (c, z).
Proof.
  intros Hl H. revert Hl. induction H as [|t v l c Hv H IH]; intros Hl z; [reflexivity|]. inversion Hl; subst.
  cbn [combine flat_map fst snd unpack_frag]. destruct Hv as [Lv Sv].
  assert (L : length (det2csf t v) = ncsf t) by now apply tf_csf.
  rewrite <- app_assoc.
  replace (_ <? ncsf t) with false by (symmetry; apply Nat.ltb_ge; rewrite app_length; lia).
  rewrite <- L, skipn_app, skipn_all, Nat.sub_diag, firstn_app, firstn_all, Nat.sub_diag.
  cbn [skipn firstn app]. rewrite app_nil_r, IH by assumption. cbn [bind fst snd]. now rewrite Sv.
Qed.
Definition thawed (i : nat) (tfs : list (list tf)) (ci : list (list (list K))) : list (list (list K)) :=
  map (fun x : nat * (list tf * list (list K)) => if frz (fst x) then zeros_of (fst (snd x)) else snd (snd x))
      (combine (seq i (length tfs)) (combine tfs ci)).
Lemma unpack_ci_pack tfs ci : Forall (Forall tf_ok) tfs -> forall i,
  length ci = length tfs ->
  (forall j l c, nth_error tfs j = Some l -> nth_error ci j = Some c -> frz (i + j) = false -> Forall2 in_span l c) ->
  length (ci_vars i tfs ci) = nci i tfs /\
  unpack_ci k0 frozen_ci i tfs (ci_vars i tfs ci) = Ok (thawed i tfs ci).
Proof.
  intros Ht. revert ci. induction Ht as [|l tfs Hl Ht IH]; intros [|c ci] i L H; cbn [length] in L; try lia; [split; reflexivity|].
  destruct (IH ci (S i)) as (N & U); [lia| |].
  { intros j l' c' E1 E2 F. apply (H (S j) l' c' E1 E2). now rewrite <- Nat.add_succ_comm. }
  cbn [ci_vars nci unpack_ci]. unfold thawed. cbn [length seq combine map fst snd]. fold (thawed (S i) tfs ci).
  unfold ci_part. destruct (frz i) eqn:Fi.
  - cbn [app Nat.add]. split; [exact N|]. rewrite unpack_frag_frozen. cbn [bind fst snd]. now rewrite U.
  - assert (Sp : Forall2 in_span l c) by (apply (H 0 l c eq_refl eq_refl); now rewrite Nat.add_0_r).
    split.
    + rewrite app_length, N. f_equal. apply frag_len; [exact Hl|]. clear -Sp. induction Sp; constructor; auto. apply H.
    + rewrite unpack_frag_pack by assumption. cbn [bind fst snd]. now rewrite U.
Qed.
End P.
