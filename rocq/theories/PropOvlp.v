(** Property C69: the overlap matrix of the product states. *)
From Coq Require Import List NArith ZArith Arith Bool Lia QArith Qcanon.
From Verif Require Import Base BaseFacts Star AddrModel AddrSpec AddrProofs SCModel SCSpec FockSpec FockFacts FockOps LprodSpec LasFock LasElem SignsModel LasSigns ExcSpec ExcModel UexcModel PropExc PropUexc PropSC.
From Verif Require Import StdmModel StdmFacts CrunchModel CrunchSpec CrunchAll CrunchEnd PropCrunch OvlpModel OvlpFacts PropHam.
Import ListNotations.
Close Scope Qc_scope. Close Scope Q_scope.
Local Open Scope nat_scope.

(** the CI vectors have the electron numbers they are said to have *)
Definition electrons_ok {K : star_ring} (P : model_space K) : Prop := 0 < m_nf P /\ 0 < m_nroots P /\
  forall f a i, f < m_nf P -> i < m_nl P f a -> has_nelec K (m_norb P f) (m_ne P f a) (m_vec P f a i).
(** exc_null *)
Definition w_null {K : star_ring} (P : model_space K) : list (nat * nat) :=
  map pair_of (t_null (make_exc_tables (m_nf P) (hopping_index (w_nelec P)) (w_scai P))).
(** what rootidx asks for *)
Definition asked {K : star_ring} (P : model_space K) (rootidx : option (list nat)) : list nat :=
  match rootidx with None => seq 0 (m_nroots P) | Some l => l end.
Definition ask_ok {K : star_ring} (P : model_space K) (rootidx : option (list nat)) : Prop :=
  asked P rootidx <> [] /\ NoDup (asked P rootidx) /\ Forall (fun r => r < m_nroots P) (asked P rootidx).
(** local roots of the rootspaces asked for: rows are fragments *)
Definition asked_lroots {K : star_ring} (P : model_space K) (rootidx : option (list nat)) : list (list nat) :=
  map (fun f => map (fun r => m_nl P f (m_ur P f r)) (asked P rootidx)) (seq 0 (m_nf P)).
Definition w_ovlp {K : star_ring} (P : model_space K) (half : K) (ovlp : nat -> nat -> nat -> list (list K)) (rootidx : option (list nat)) : res (nat * mat) :=
  get_ovlp half (w_lroots P) ovlp (spinK K (w_nelec P)) (w_null P) rootidx.
Definition overlap {K : star_ring} (P : model_space K) (r : nat) (e : list nat) (r' : nat) (e' : list nat) : K :=
  inner K (2 * norb (m_nf P) (m_norb P)) (product P r e) (product P r' e').

Section Facts.
  Context {K : star_ring}.
  Add Ring Kring : (sring K).
  Variable P : model_space K.
  Hypothesis He : electrons_ok P.
  Lemma null_iff b k : In (b, k) (w_null P) <-> k <= b < m_nroots P /\ forall f, f < m_nf P -> m_ne P f (m_ur P f b) = m_ne P f (m_ur P f k).
  Proof.
    unfold w_null. split.
    - intros I. apply in_map_iff in I as (row & Er & I).
      destruct (rows_null (m_nf P) (w_nelec P) (w_scai P) (fun p Hp => conj (proj1 (w_admissible P p Hp)) (proj1 (proj2 (w_admissible P p Hp)))) (fun p Hp => proj2 (proj2 (w_admissible P p Hp))) row I) as (Ip & _ & C).
      rewrite Er in Ip. apply w_pairs in Ip as [Hr _]. split; [exact Hr|]. intros f Hf. unfold pair_of in Er. injection Er as Eb Ek. rewrite Eb, Ek in C. clear Eb Ek.
      assert (C0 := C f 0 Hf ltac:(lia)). assert (C1 := C f 1 Hf ltac:(lia)). unfold elec in C0, C1. unfold w_nelec in C0, C1. rewrite !(nth_map_seq0 (fun f => (Z.of_nat (fst (m_ne P f (m_ur P f b))), Z.of_nat (snd (m_ne P f (m_ur P f b))))) (m_nf P) f) in C0, C1 by exact Hf.
      rewrite !(nth_map_seq0 (fun f => (Z.of_nat (fst (m_ne P f (m_ur P f k))), Z.of_nat (snd (m_ne P f (m_ur P f k))))) (m_nf P) f) in C0, C1 by exact Hf.
      cbn in C0, C1. destruct (m_ne P f (m_ur P f b)) as [x1 x2], (m_ne P f (m_ur P f k)) as [y1 y2]. cbn [fst snd] in *. f_equal; lia.
    - intros [Hr E]. assert (Ew : w_nelec P b = w_nelec P k) by (unfold w_nelec; apply map_ext_in; intros f If; apply in_seq in If; rewrite E by lia; reflexivity).
      apply in_map_iff. exists (mkRow b k [] None). split; [reflexivity|]. cbn [make_exc_tables t_null]. unfold exc_null, select. apply in_map_iff. exists (b, k). split; [reflexivity|]. apply filter_In. split.
      + apply w_pairs. split; [exact Hr|]. rewrite Ew. unfold w_nelec. apply (coupled_of (m_nf P) _ _ [] []); [intros z []|reflexivity|cbn; lia|reflexivity|reflexivity|]. intros f _. unfold moves. cbn. lia.
      + cbn [fst snd]. unfold hopping_index. rewrite Ew. apply Z.eqb_eq. unfold nop, sum_abs. clear Ew E. generalize (w_nelec P k). intros l0. induction l0 as [|x l IH]; [reflexivity|]. cbn [combine map fst snd]. change (sumZ (?x :: ?m)) with (x + sumZ m)%Z. rewrite !Z.sub_diag. cbn [Z.abs]. lia.
  Qed.
  Lemma overlap_prod r e r' e' : r < m_nroots P -> r' < m_nroots P -> in_range (dims_of (w_lroots P) r) e -> in_range (dims_of (w_lroots P) r') e' ->
    overlap P r e r' e' = smul (smul (spinK K (w_nelec P) r) (spinK K (w_nelec P) r'))
      (LprodSpec.bprod K (seq 0 (m_nf P)) (fun f => inner K (2 * m_norb P f) (m_vec P f (m_ur P f r) (nth f e 0)) (m_vec P f (m_ur P f r') (nth f e' 0)))).
  Proof.
    intros Hr Hr' R R'. destruct He as (_ & _ & Hne).
    assert (Hin : forall r e, r < m_nroots P -> in_range (dims_of (w_lroots P) r) e -> forall f, f < m_nf P -> has_nelec K (m_norb P f) (m_ne P f (m_ur P f r)) (m_vec P f (m_ur P f r) (nth f e 0))).
    { intros q d Hq Rd f Hf. apply Hne; [exact Hf|]. rewrite (dims_at P q Hq) in Rd. apply in_range_nth in Rd as [_ Rd]. rewrite map_length, seq_length in Rd. specialize (Rd f Hf). now rewrite (nth_map_seq0 (fun f => m_nl P f (m_ur P f q)) (m_nf P) f) in Rd by exact Hf. }
    pose proof (elem_factor (m_nf P) (m_norb P) K (fun f => m_vec P f (m_ur P f r) (nth f e 0)) (fun f => m_ne P f (m_ur P f r)) (fun f => m_vec P f (m_ur P f r') (nth f e' 0)) (fun f => m_ne P f (m_ur P f r')) [] (Hin r e Hr R) (Hin r' e' Hr' R') (Forall_nil _)) as E.
    unfold elem in E. cbn [gops fold_right map rsign] in E. unfold overlap, product. etransitivity; [exact E|]. rewrite xorb_false_r.
    rewrite !(spinK_is K (m_nf P) (m_ne P) (m_ur P) (m_nroots P) (w_nelec P) (fun r _ => eq_refl)) by assumption.
    match goal with |- sg K _ ?x = smul _ ?y => change x with y; generalize y end. intros y.
    destruct (spar (m_nf P) (fun f => m_ne P f (m_ur P f r))), (spar (m_nf P) (fun f => m_ne P f (m_ur P f r'))); cbn; ring.
  Qed.
  Lemma overlap_zero r e r' e' f : r < m_nroots P -> r' < m_nroots P -> in_range (dims_of (w_lroots P) r) e -> in_range (dims_of (w_lroots P) r') e' ->
    f < m_nf P -> m_ne P f (m_ur P f r) <> m_ne P f (m_ur P f r') -> overlap P r e r' e' = s0.
  Proof.
    intros Hr Hr' R R' Hf D. rewrite (overlap_prod r e r' e') by assumption. rewrite (bprod_0 K _ _ f); [ring|apply in_seq; lia|]. cbv beta. destruct He as (_ & _ & Hne).
    rewrite (dims_at P r Hr) in R. rewrite (dims_at P r' Hr') in R'. apply in_range_nth in R as [_ R], R' as [_ R']. rewrite map_length, seq_length in R, R'. specialize (R f Hf). specialize (R' f Hf).
    rewrite (nth_map_seq0 (fun f => m_nl P f (m_ur P f r)) (m_nf P) f) in R by exact Hf. rewrite (nth_map_seq0 (fun f => m_nl P f (m_ur P f r')) (m_nf P) f) in R' by exact Hf.
    eapply inner_zdef; [apply zdef_nelec, Hne; [exact Hf|exact R]|apply zdef_nelec, Hne; [exact Hf|exact R']|].
    intros Q. apply D. destruct (m_ne P f (m_ur P f r)), (m_ne P f (m_ur P f r')). cbn [fst snd] in Q. injection Q as Q1 Q2. f_equal; lia.
  Qed.
End Facts.

Definition block_entry {K : star_ring} (P : model_space K) (half : K) (r : nat) (e : list nat) (r' : nat) (e' : list nat) : K :=
  if r' <? r then overlap P r e r' e' else if r <? r' then overlap P r' e' r e else smul half (sadd (overlap P r e r' e') (overlap P r' e' r e)).

Lemma column_asked {K : star_ring} (P : model_space K) rootidx i : i < length (asked P rootidx) -> column (asked_lroots P rootidx) i = map (fun f => m_nl P f (m_ur P f (nth i (asked P rootidx) 0))) (seq 0 (m_nf P)).
Proof.
  intros Hi. unfold column, asked_lroots. rewrite map_map. apply map_ext. intros f. apply (nth_map_lt (fun r => m_nl P f (m_ur P f r)) _ _ 0 0 Hi).
Qed.
Lemma column_w {K : star_ring} (P : model_space K) r : r < m_nroots P -> column (w_lroots P) r = map (fun f => m_nl P f (m_ur P f r)) (seq 0 (m_nf P)).
Proof. intros Hr. exact (dims_at P r Hr). Qed.
Lemma asked_w {K : star_ring} (P : model_space K) l : Forall (fun r => r < m_nroots P) l -> take_cols (w_lroots P) l = map (fun f => map (fun r => m_nl P f (m_ur P f r)) l) (seq 0 (m_nf P)).
Proof.
  intros F. unfold take_cols, w_lroots. rewrite map_map. apply map_ext. intros f. apply map_ext_in. intros r I. rewrite Forall_forall in F. apply (nth_map_seq0 (fun r => m_nl P f (m_ur P f r)) (m_nroots P) r 0), F, I.
Qed.
Lemma asked_hd {K : star_ring} (P : model_space K) rootidx : 0 < m_nf P -> length (hd [] (asked_lroots P rootidx)) = length (asked P rootidx).
Proof. intros H. unfold asked_lroots. destruct (m_nf P); [lia|]. cbn. apply map_length. Qed.

Section General.
Context (K : star_ring).
Add Ring Kring2 : (sring K).
Lemma ovlp_general (P : model_space K) (half : K) (ovlp : nat -> nat -> nat -> list (list K)) (rootidx : option (list nat)) :
  electrons_ok P -> gram P ovlp -> sadd half half = s1 -> ask_ok P rootidx ->
  exists M, w_ovlp P half ovlp rootidx = Ok (states_before (asked_lroots P rootidx) (length (asked P rootidx)), M) /\
    forall i e j e', i < length (asked P rootidx) -> j < length (asked P rootidx) -> in_range (dims_of (asked_lroots P rootidx) i) e -> in_range (dims_of (asked_lroots P rootidx) j) e' ->
      M (states_before (asked_lroots P rootidx) i + colmajor (dims_of (asked_lroots P rootidx) i) e) (states_before (asked_lroots P rootidx) j + colmajor (dims_of (asked_lroots P rootidx) j) e') =
      block_entry P half (nth i (asked P rootidx) 0) e (nth j (asked P rootidx) 0) e'.
Proof.
  intros He Hg Hh (Hne & Hnd & Hlt). pose proof He as (Hn & Hr & Hel). pose (rs := asked P rootidx). pose (L := asked_lroots P rootidx).
  pose (ssh := spinK K (w_nelec P)). pose (exc := filter (fun p => isin (fst p) rs && isin (snd p) rs) (w_null P)).
  assert (HL : length (hd [] L) = length rs) by (apply asked_hd, Hn).
  assert (Hin : forall i, i < length rs -> nth i rs 0 < m_nroots P) by (intros i Hi; rewrite Forall_forall in Hlt; apply Hlt, nth_In, Hi).
  assert (Isin : forall r, isin r rs = true <-> In r rs) by (intros r; unfold isin; rewrite existsb_exists; split; [intros (x & I & E); apply Nat.eqb_eq in E; now subst|intros I; exists r; split; [exact I|apply Nat.eqb_refl]]).
  assert (S0 : exists offs, (forall i, i < length rs -> offs (nth i rs 0) = (states_before L i, states_before L (S i))) /\
    w_ovlp P half ovlp rootidx = (do m <- put_blocks half (w_lroots P) ovlp ssh offs exc (fun _ _ => s0) ;; Ok (states_before L (length rs), fun x y => sadd (m x y) (m y x)))).
  { assert (Tot : sum_nat (nprods L) = states_before L (length rs)) by (rewrite states_total, HL; reflexivity).
    assert (Of : forall i, i < length rs -> (addr0 L i, addr0 L i + nth i (nprods L) 0) = (states_before L i, states_before L (S i))) by (intros i Hi; rewrite addr_states, nprods_nth, states_S by (rewrite HL; exact Hi); reflexivity).
    unfold w_ovlp, get_ovlp. fold ssh. destruct rootidx as [l|].
    - assert (El : forallb (fun r => r <? length (hd [] (w_lroots P))) l && negb (length l =? 0) = true).
      { assert (Hh' : length (hd [] (w_lroots P)) = m_nroots P) by (unfold w_lroots; destruct (m_nf P) as [|q]; [lia|]; cbn; now rewrite map_length, seq_length).
        apply andb_true_iff. split; [|destruct l; [cbn in Hne; congruence|reflexivity]]. apply forallb_forall. intros r I. apply Nat.ltb_lt. rewrite Hh'. rewrite Forall_forall in Hlt. now apply Hlt. }
      rewrite El. cbn [bind]. exists (set_offs L l (offs_lroots (w_lroots P))). split.
      + intros i Hi. change rs with l in *. rewrite (set_offs_at L l _ i Hnd Hi). exact (Of i Hi).
      + rewrite (asked_w P l) by exact Hlt. change (map (fun f => map (fun r => m_nl P f (m_ur P f r)) l) (seq 0 (m_nf P))) with L. rewrite Tot. reflexivity.
    - cbn [bind]. change (w_lroots P) with L. exists (offs_lroots L). split.
      + intros i Hi. assert (Ei : nth i rs 0 = i) by (unfold rs, asked in *; rewrite seq_length in Hi; apply seq_nth, Hi). rewrite Ei. apply Of, Hi.
      + rewrite Tot. replace exc with (w_null P); [reflexivity|]. unfold exc. symmetry. clear -He Isin. assert (G : forall l, (forall p, In p l -> In (fst p) rs /\ In (snd p) rs) -> filter (fun p => isin (fst p) rs && isin (snd p) rs) l = l).
        { induction l as [|p l IH]; intros H; [reflexivity|]. cbn [filter]. destruct (H p (or_introl eq_refl)) as [I1 I2]. rewrite (proj2 (Isin _) I1), (proj2 (Isin _) I2). cbn. f_equal. apply IH. intros q Iq. apply H. now right. }
        apply G. intros [b k] I. apply (null_iff P) in I as [I _]. unfold rs, asked. cbn [fst snd]. rewrite !in_seq. lia. }
  destruct S0 as (offs & Ho & ->).
  assert (Ex : forall b k, In (b, k) exc <-> In b rs /\ In k rs /\ In (b, k) (w_null P)) by (intros b k; unfold exc; rewrite filter_In, andb_true_iff, !Isin; cbn [fst snd]; tauto).
  assert (Pos : forall r, In r rs -> exists i, i < length rs /\ nth i rs 0 = r) by (intros r I; apply (In_nth _ _ 0), I).
  assert (Co : forall i, i < length rs -> column L i = column (w_lroots P) (nth i rs 0)) by (intros i Hi; rewrite column_w by (apply Hin, Hi); apply column_asked, Hi).
  assert (HC : forall i j, i < length rs -> j < length rs -> shaped (crunch_ovlp half (w_lroots P) ovlp ssh (nth i rs 0) (nth j rs 0)) (prodN (column L i)) (prodN (column L j)) /\
    forall e e', in_range (column L i) e -> in_range (column L j) e' -> mat_at (crunch_ovlp half (w_lroots P) ovlp ssh (nth i rs 0) (nth j rs 0)) (colmajor (column L i) e) (colmajor (column L j) e') =
      smul (if nth i rs 0 =? nth j rs 0 then half else s1) (overlap P (nth i rs 0) e (nth j rs 0) e')).
  { intros i j Hi Hj. rewrite (Co i Hi), (Co j Hj). assert (Hb := Hin i Hi). assert (Hk := Hin j Hj).
    destruct (crunch_at half (w_lroots P) ovlp ssh ltac:(rewrite w_len; exact Hn) (nth i rs 0) (nth j rs 0)) as [Sc Hc].
    - intros f Hf. rewrite w_len in Hf. rewrite !column_w by assumption. rewrite (nth_map_seq0 (fun f => m_nl P f (m_ur P f (nth i rs 0))) (m_nf P) f), (nth_map_seq0 (fun f => m_nl P f (m_ur P f (nth j rs 0))) (m_nf P) f) by exact Hf. now apply Hg.
    - split; [exact Sc|]. intros e e' R R'. etransitivity; [apply Hc; assumption|]. rewrite (overlap_prod P He _ e _ e' Hb Hk R R'). rewrite w_len, bprods. fold ssh.
      rewrite (bprod_ext K (seq 0 (m_nf P)) _ (fun f => inner K (2 * m_norb P f) (m_vec P f (m_ur P f (nth i rs 0)) (nth f e 0)) (m_vec P f (m_ur P f (nth j rs 0)) (nth f e' 0)))).
      + ring.
      + intros f If. apply in_seq in If. assert (Hf : f < m_nf P) by lia. rewrite column_w in R, R' by assumption. apply in_range_nth in R as [_ R], R' as [_ R']. rewrite map_length, seq_length in R, R'. specialize (R f Hf). specialize (R' f Hf).
        rewrite (nth_map_seq0 (fun f => m_nl P f (m_ur P f (nth i rs 0))) (m_nf P) f) in R by exact Hf. rewrite (nth_map_seq0 (fun f => m_nl P f (m_ur P f (nth j rs 0))) (m_nf P) f) in R' by exact Hf. now apply Hg. }
  assert (Wd : forall i, i < length rs -> snd (offs (nth i rs 0)) - fst (offs (nth i rs 0)) = prodN (column L i)) by (intros i Hi; rewrite (Ho i Hi); cbn [fst snd]; rewrite states_S; lia).
  destruct (blocks_ok half (w_lroots P) ovlp ssh offs exc) with (m := fun _ _ : nat => s0 (s := K)) as (m & Em & Vm).
  { intros b k I. apply Ex in I as (I1 & I2 & _). destruct (Pos b I1) as (i & Hi & <-), (Pos k I2) as (j & Hj & <-). rewrite !Wd by assumption. now apply HC. }
  rewrite Em. cbn [bind]. eexists. split; [reflexivity|]. cbv beta.
  assert (Val : forall i e j e', i < length rs -> j < length rs -> in_range (column L i) e -> in_range (column L j) e' ->
    m (states_before L i + colmajor (column L i) e) (states_before L j + colmajor (column L j) e') = if nth j rs 0 <=? nth i rs 0 then smul (if nth i rs 0 =? nth j rs 0 then half else s1) (overlap P (nth i rs 0) e (nth j rs 0) e') else s0).
  { intros i e j e' Hi Hj R R'. pose proof (colmajor_lt _ _ R) as B. pose proof (colmajor_lt _ _ R') as B'.
    assert (Wi : within (states_before L i + colmajor (column L i) e) (offs (nth i rs 0))) by (rewrite (Ho i Hi); unfold within; cbn [fst snd]; rewrite states_S; lia).
    assert (Wj : within (states_before L j + colmajor (column L j) e') (offs (nth j rs 0))) by (rewrite (Ho j Hj); unfold within; cbn [fst snd]; rewrite states_S; lia).
    assert (Un : forall q x r, q < length rs -> In r rs -> within x (offs (nth q rs 0)) -> within x (offs r) -> r = nth q rs 0).
    { intros q x r Hq Ir W W'. destruct (Pos r Ir) as (q' & Hq' & <-). rewrite (Ho q Hq) in W. rewrite (Ho q' Hq') in W'. f_equal. exact (states_sep L q' q x W' W). }
    destruct (Vm (states_before L i + colmajor (column L i) e) (states_before L j + colmajor (column L j) e')) as [V0 V1].
    assert (Rw : in_range (dims_of (w_lroots P) (nth i rs 0)) e) by (change (in_range (column (w_lroots P) (nth i rs 0)) e); rewrite <- (Co i Hi); exact R).
    assert (Rw' : in_range (dims_of (w_lroots P) (nth j rs 0)) e') by (change (in_range (column (w_lroots P) (nth j rs 0)) e'); rewrite <- (Co j Hj); exact R').
    destruct (nth j rs 0 <=? nth i rs 0) eqn:Le.
    - apply Nat.leb_le in Le. assert (Dec : (forall f, f < m_nf P -> m_ne P f (m_ur P f (nth i rs 0)) = m_ne P f (m_ur P f (nth j rs 0))) \/ exists f, f < m_nf P /\ m_ne P f (m_ur P f (nth i rs 0)) <> m_ne P f (m_ur P f (nth j rs 0))).
      { generalize (m_nf P). intros n. induction n as [|n [IH|(f & Hf & D)]]; [left; lia| |right; exists f; split; [lia|exact D]].
        destruct (m_ne P n (m_ur P n (nth i rs 0))) as [x1 x2] eqn:E1, (m_ne P n (m_ur P n (nth j rs 0))) as [y1 y2] eqn:E2. destruct (Nat.eq_dec x1 y1) as [->|D]; [destruct (Nat.eq_dec x2 y2) as [->|D]|].
        - left. intros f Hf. destruct (Nat.eq_dec f n) as [->|]; [now rewrite E1, E2|]. apply IH. lia.
        - right. exists n. split; [lia|]. rewrite E1, E2. congruence.
        - right. exists n. split; [lia|]. rewrite E1, E2. congruence. }
      destruct Dec as [Eq|(f & Hf & D)].
      + rewrite (V1 (nth i rs 0) (nth j rs 0)); [| |exact Wi|exact Wj|].
        * rewrite (Ho i Hi), (Ho j Hj). cbn [fst]. rewrite !(Nat.add_comm (states_before L _)), !Nat.add_sub. now apply HC.
        * apply Ex. split; [apply nth_In, Hi|]. split; [apply nth_In, Hj|]. apply (null_iff P). split; [split; [exact Le|apply Hin, Hi]|exact Eq].
        * intros b' k' I W W'. apply Ex in I as (I1 & I2 & _). split; [exact (Un i _ b' Hi I1 Wi W)|exact (Un j _ k' Hj I2 Wj W')].
      + rewrite V0; [|].
        * rewrite (overlap_zero P He _ e _ e' f (Hin i Hi) (Hin j Hj) Rw Rw' Hf D). destruct (_ =? _); ring.
        * intros b' k' I [W W']. apply Ex in I as (I1 & I2 & I). rewrite (Un i _ b' Hi I1 Wi W), (Un j _ k' Hj I2 Wj W') in I. apply (null_iff P) in I as [_ E]. apply D, E, Hf.
    - apply Nat.leb_gt in Le. apply V0. intros b' k' I [W W']. apply Ex in I as (I1 & I2 & I). rewrite (Un i _ b' Hi I1 Wi W), (Un j _ k' Hj I2 Wj W') in I. apply (null_iff P) in I as [I _]. lia. }
  intros i e j e' Hi Hj R R'. change (in_range (column L i) e) in R. change (in_range (column L j) e') in R'.
  change (sadd (m (states_before L i + colmajor (column L i) e) (states_before L j + colmajor (column L j) e')) (m (states_before L j + colmajor (column L j) e') (states_before L i + colmajor (column L i) e)) = block_entry P half (nth i rs 0) e (nth j rs 0) e').
  rewrite (Val i e j e' Hi Hj R R'), (Val j e' i e Hj Hi R' R). unfold block_entry.
  destruct (Nat.lt_trichotomy (nth i rs 0) (nth j rs 0)) as [Lt|[Eq|Lt]].
  - rewrite (proj2 (Nat.leb_gt _ _)) by exact Lt. rewrite (proj2 (Nat.leb_le _ _)) by lia. rewrite (proj2 (Nat.eqb_neq _ _)) by lia. rewrite (proj2 (Nat.ltb_ge _ _)) by lia. rewrite (proj2 (Nat.ltb_lt _ _)) by exact Lt. ring.
  - rewrite Eq, Nat.leb_refl, Nat.eqb_refl, Nat.ltb_irrefl. ring.
  - rewrite (proj2 (Nat.leb_le _ _)) by lia. rewrite (proj2 (Nat.leb_gt _ _)) by exact Lt. rewrite (proj2 (Nat.eqb_neq _ _)) by lia. rewrite (proj2 (Nat.ltb_lt _ _)) by exact Lt. ring.
Qed.
End General.

(** Entry (i,e),(j,e') of the block of rootspaces r = rootidx[i] and r' = rootidx[j]: the inner product of the product states in the rootspace of the
    higher number and in that of the lower number; within a rootspace the mean of both orders. *)
Theorem C69_overlap : forall (K : star_ring) (P : model_space K) (half : K) (ovlp : nat -> nat -> nat -> list (list K)) (rootidx : option (list nat)),
  electrons_ok P -> gram P ovlp -> sadd half half = s1 -> ask_ok P rootidx ->
  exists M, w_ovlp P half ovlp rootidx = Ok (states_before (asked_lroots P rootidx) (length (asked P rootidx)), M) /\
    forall i e j e', i < length (asked P rootidx) -> j < length (asked P rootidx) -> in_range (dims_of (asked_lroots P rootidx) i) e -> in_range (dims_of (asked_lroots P rootidx) j) e' ->
      M (states_before (asked_lroots P rootidx) i + colmajor (dims_of (asked_lroots P rootidx) i) e) (states_before (asked_lroots P rootidx) j + colmajor (dims_of (asked_lroots P rootidx) j) e') =
      block_entry P half (nth i (asked P rootidx) 0) e (nth j (asked P rootidx) 0) e'.
Proof. exact ovlp_general. Qed.
Print Assumptions C69_overlap.

Section Real.
Context (K : star_ring).
Add Ring Kring3 : (sring K).
Lemma overlap_sym (P : model_space K) r e r' e' : (forall v : K, sconj v = v) -> overlap P r e r' e' = overlap P r' e' r e.
Proof. intros Hc. unfold overlap. rewrite (inner_swap K). apply Hc. Qed.
Lemma block_real (P : model_space K) half r e r' e' : (forall v : K, sconj v = v) -> sadd half half = s1 -> block_entry P half r e r' e' = overlap P r e r' e'.
Proof.
  intros Hc Hh. unfold block_entry. rewrite (overlap_sym P r' e' r e Hc). destruct (r' <? r); [reflexivity|]. destruct (r <? r'); [reflexivity|].
  transitivity (smul (sadd half half) (overlap P r e r' e')); [ring|]. rewrite Hh. ring.
Qed.
End Real.
(** For real CI vectors get_ovlp returns the Gram matrix of the product states of the rootspaces asked for, in the order asked for. *)
Theorem C69_overlap_real : forall (K : star_ring) (P : model_space K) (half : K) (ovlp : nat -> nat -> nat -> list (list K)) (rootidx : option (list nat)),
  (forall v : K, sconj v = v) -> electrons_ok P -> gram P ovlp -> sadd half half = s1 -> ask_ok P rootidx ->
  exists M, w_ovlp P half ovlp rootidx = Ok (states_before (asked_lroots P rootidx) (length (asked P rootidx)), M) /\
    forall i e j e', i < length (asked P rootidx) -> j < length (asked P rootidx) -> in_range (dims_of (asked_lroots P rootidx) i) e -> in_range (dims_of (asked_lroots P rootidx) j) e' ->
      M (states_before (asked_lroots P rootidx) i + colmajor (dims_of (asked_lroots P rootidx) i) e) (states_before (asked_lroots P rootidx) j + colmajor (dims_of (asked_lroots P rootidx) j) e') =
      inner K (2 * norb (m_nf P) (m_norb P)) (product P (nth i (asked P rootidx) 0) e) (product P (nth j (asked P rootidx) 0) e').
Proof.
  intros K P half ovlp rootidx Hc He Hg Hh Ha. destruct (ovlp_general K P half ovlp rootidx He Hg Hh Ha) as (M & E & V). exists M. split; [exact E|]. intros i e j e' Hi Hj R R'.
  rewrite (V i e j e' Hi Hj R R'). apply (block_real K P half); assumption.
Qed.
Print Assumptions C69_overlap_real.

From Verif Require Import PropStdm.
(** Two fragments with 2 and 1 orbitals; the first and the last of three rootspaces have the same electrons. *)
Definition o_ne (f a : nat) : nat * nat := nth a [(1, 0); (0, 1); (1, 0)] (0, 0).
Definition o_norb (f : nat) : nat := nth f [2; 1] 0.
Definition o_ur (f r : nat) : nat := nth f (nth r [[0; 1]; [1; 0]; [2; 1]] []) 0.
Definition o_nl (f a : nat) : nat := if f =? 0 then nth a [2; 1; 1] 0 else 1.
Definition o_vec (f a i : nat) : vec Qs := fun d =>
  if (count (bt d) (seq (o_norb f) (o_norb f)) =? fst (o_ne f a)) && (count (bt d) (seq 0 (o_norb f)) =? snd (o_ne f a))
  then zq (1 + Z.of_nat ((3 * i + N.to_nat d + 2 * a + f) mod 5)) else zq 0.
Definition o_P : model_space Qs := mkMS 2 o_norb o_vec o_ne o_nl o_ur 3.
Definition o_ovlp (f b k : nat) : list (list Qs) :=
  map (fun i => map (fun j => inner Qs (2 * o_norb f) (o_vec f (o_ur f b) i) (o_vec f (o_ur f k) j)) (seq 0 (o_nl f (o_ur f k)))) (seq 0 (o_nl f (o_ur f b))).
Definition o_states : list (nat * list nat) := [(0, [0; 0]); (0, [1; 0]); (1, [0; 0]); (2, [0; 0])].
Definition o_matrix (order : list nat) : list (list Qs) :=
  map (fun i => map (fun j => let a := nth i o_states (0, []) in let b := nth j o_states (0, []) in overlap o_P (fst a) (snd a) (fst b) (snd b)) order) order.
Definition o_show (x : res (nat * @mat Qs)) : option (nat * list (list Q)) :=
  match x with Raise _ => None | Ok (n, m) => Some (n, map (fun i => map (fun j => this (m i j)) (seq 0 n)) (seq 0 n)) end.
Example C69_example :
  o_show (w_ovlp o_P hq o_ovlp None) = Some (4, [[1025; 575; 0; 800]; [575; 325; 0; 450]; [0; 0; 656; 0]; [800; 450; 0; 625]]%Q) /\
  o_show (w_ovlp o_P hq o_ovlp (Some [2; 0])) = Some (3, [[625; 800; 450]; [800; 1025; 575]; [450; 575; 325]]%Q) /\
  map (map this) (o_matrix [3; 0; 1]) = [[625; 800; 450]; [800; 1025; 575]; [450; 575; 325]]%Q.
Proof. vm_compute. repeat split; reflexivity. Qed.
(** A rootspace asked for twice: the rows of its first copy are left empty. *)
Example C69_repeated_example :
  o_show (w_ovlp o_P hq o_ovlp (Some [2; 2])) = Some (2, [[0; 0]; [0; 625]]%Q) /\ map (map this) (o_matrix [3; 3]) = [[625; 625]; [625; 625]]%Q.
Proof. vm_compute. repeat split; reflexivity. Qed.

(** Complex CI vectors: one fragment with one orbital; the rootspaces hold |d> and i|d>.  The upper triangle is not conjugated. *)
Definition oc_vec (f a i : nat) : vec Cq := fun d => if (d =? 2)%N then if a =? 0 then cz 1 0 else cz 0 1 else cz 0 0.
Definition oc_P : model_space Cq := mkMS 1 (fun _ => 1) oc_vec (fun _ _ => (1, 0)) (fun _ _ => 1) (fun _ r => r) 2.
Definition oc_ovlp (f b k : nat) : list (list Cq) := [[inner Cq 2 (oc_vec f b 0) (oc_vec f k 0)]].
Lemma oc_ok : electrons_ok oc_P.
Proof.
  split; [cbn; lia|]. split; [cbn; lia|]. intros f a i _ _ d _. cbn [oc_P m_vec m_norb m_ne]. unfold oc_vec. destruct (N.eqb_spec d 2) as [->|]; [right; vm_compute; split; reflexivity|left; reflexivity].
Qed.
Theorem C69_complex_overlap_refuted : exists (P : model_space Cq) (ovlp : nat -> nat -> nat -> list (list Cq)) (n : nat) (M : mat),
  electrons_ok P /\ gram P ovlp /\ sadd ch ch = s1 /\ w_ovlp P ch ovlp None = Ok (n, M) /\ m_nroots P = 2 /\
  dims_of (w_lroots P) 0 = [1] /\ dims_of (w_lroots P) 1 = [1] /\
  M 0 1 <> inner Cq (2 * norb (m_nf P) (m_norb P)) (product P 0 [0]) (product P 1 [0]).
Proof.
  pose (X := w_ovlp oc_P ch oc_ovlp None).
  assert (T : match X with Ok (n, m) => ceq (m 0 1) (inner Cq 2 (product oc_P 0 [0]) (product oc_P 1 [0])) | Raise _ => true end = false) by (vm_compute; reflexivity).
  destruct X as [[n m]|x] eqn:E; [|discriminate]. exists oc_P, oc_ovlp, n, m. split; [exact oc_ok|]. split.
  { intros f b k Hf Hb Hk. cbn [oc_P m_nf m_nroots m_nl m_ur m_norb m_vec] in *. split; [split; [reflexivity|intros row [<-|[]]; reflexivity]|]. intros i j Hi Hj. destruct i, j; try lia. reflexivity. }
  split; [apply ceq_ok; vm_compute; reflexivity|]. split; [exact E|]. split; [reflexivity|]. split; [reflexivity|]. split; [reflexivity|].
  intros Q. change (m 0 1 = inner Cq 2 (product oc_P 0 [0]) (product oc_P 1 [0])) in Q. rewrite Q in T. revert T. vm_compute. discriminate.
Qed.
Print Assumptions C69_complex_overlap_refuted.
