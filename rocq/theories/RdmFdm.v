(** The density matrices of the involved fragments are sums over the states of the others. *)
From Coq Require Import List ZArith Bool Arith Lia Permutation Ring.
From Verif Require Import Base BaseFacts Star AddrModel AddrFacts AddrSpec AddrProofs TransModel PropTrans ExcModel UexcModel StdmModel StdmFacts StdmSum CrunchModel HamModel HamLoop RdmModel RdmSums.
Import ListNotations.
Local Open Scope nat_scope.

Section Fdm.
  Context {K : star_ring}.
  Add Ring Kring : (sring K).
  Variables (half : K) (big : K -> bool) (pyset : list nat -> list nat) (lroots : list (list nat)).
  Variables (ovlp : nat -> nat -> nat -> list (list K)) (spin_shuffle : nat -> K) (frag_shuffle : nat -> list nat -> K).
  Let n := length lroots.
  Let nroots := length (hd [] lroots).
  Let col r := column lroots r.
  Hypothesis Hpos : forall r f, r < nroots -> f < n -> 0 < nth f (col r) 0.
  Hypothesis Hset : forall l, NoDup (pyset l) /\ forall f, In f (pyset l) <-> In f l.
  Hypothesis Hpy : forall l l', (forall f, In f l -> f < n) -> (forall f, In f l <-> In f l') -> pyset l = pyset l'.
  Hypothesis Hov : forall f b k, f < n -> b < nroots -> k < nroots -> shaped (ovlp f b k) (nth f (col b) 0) (nth f (col k) 0).
  Notation lstd := (listed half big pyset lroots ovlp spin_shuffle frag_shuffle).
  Notation spect := (StdmSum.spectators).

  (** every column has a coefficient for every product state *)
  Definition wide (si : list (list K)) : Prop := forall c r e, In c si -> r < nroots -> in_range (col r) e -> address lroots r e < length c.
  Definition coeff (si : list (list K)) (root r : nat) (e : list nat) : K := nth (address lroots r e) (nth root si []) s0.

  Lemma dims_col r : dims_of lroots r = col r.
  Proof. reflexivity. Qed.
  Lemma slice_len si r : wide si -> r < nroots -> length (si_slice lroots si r) = prodN (col r) * length si.
  Proof.
    intros W Hr. unfold si_slice. fold (col r). rewrite (flat_len _ _ (prodN (col r))); [lia|]. intros c Ic.
    rewrite firstn_length, skipn_length. assert (P : 0 < prodN (col r)).
    { assert (G : forall l, (forall f, f < length l -> 0 < nth f l 0) -> 0 < prodN l). { induction l as [|a l IH]; intros H; cbn; [lia|]. pose proof (H 0 ltac:(cbn; lia)) as A. cbn in A. specialize (IH (fun f Hf => H (S f) ltac:(cbn; lia))). lia. }
      apply G. intros f Hf. apply Hpos; [exact Hr|]. unfold col in Hf. now rewrite col_len in Hf. }
    assert (L : addr0 lroots r + prodN (col r) <= length c); [|lia].
    destruct (colmajor_surj (col r) (prodN (col r) - 1)) as (e & R & E); [lia|]. pose proof (W c r e Ic Hr R) as A. unfold address in A. rewrite dims_col, E in A. rewrite addr0_eq by assumption. lia.
  Qed.
  Lemma slice_at si r root e : wide si -> r < nroots -> root < length si -> in_range (col r) e ->
    nth_error (si_slice lroots si r) (colmajor (col r) e + prodN (col r) * root) = Some (coeff si root r e).
  Proof.
    intros W Hr Hroot R. assert (L : colmajor (col r) e + prodN (col r) * root < length (si_slice lroots si r)) by (rewrite slice_len by assumption; pose proof (colmajor_lt _ _ R); nia).
    rewrite (nth_error_nth' _ s0 L). f_equal. unfold si_slice. fold (col r).
    replace (colmajor (col r) e + prodN (col r) * root) with (root * prodN (col r) + colmajor (col r) e) by lia.
    assert (Lc : forall c, In c si -> length (firstn (prodN (col r)) (skipn (addr0 lroots r) c)) = prodN (col r)).
    { intros c Ic. pose proof (slice_len [c] r) as S. unfold si_slice in S. cbn [flat_map] in S. rewrite app_nil_r in S. fold (col r) in S. rewrite S; [cbn; lia| |exact Hr]. intros c' r' e' [<-|[]] Hr' R'. now apply W. }
    rewrite (flat_nth _ _ (prodN (col r)) root (colmajor (col r) e) s0 []); [|exact Lc|exact Hroot|now apply colmajor_lt].
    unfold coeff, address. change (dims_of lroots r) with (col r). rewrite <- addr0_eq by assumption. pose proof (colmajor_lt _ _ R) as Lt.
    clear -Lt. revert Lt. generalize (nth root si []), (colmajor (col r) e), (prodN (col r)), (addr0 lroots r). intros c i p a Lt.
    rewrite <- (firstn_skipn a c) at 2. destruct (Nat.le_gt_cases a (length c)).
    - rewrite app_nth2 by (rewrite firstn_length; lia). rewrite firstn_length. replace (a + i - Nat.min a (length c)) with i by lia.
      revert p Lt. generalize (skipn a c). clear. intros l. revert i. induction l as [|x l IH]; intros [|i] [|p] Lt; cbn; try lia; auto. apply IH. lia.
    - rewrite skipn_all2 by lia. rewrite firstn_nil, app_nil_r. rewrite nth_overflow by (cbn; lia). symmetry. apply nth_overflow. rewrite firstn_length. lia.
  Qed.

  Lemma in_spec' inv f : In f (spect n inv) <-> f < n /\ ~ In f inv.
  Proof.
    unfold spect. rewrite filter_In, in_seq, negb_true_iff. split.
    - intros [H1 H2]. split; [lia|]. intros C. assert (existsb (Nat.eqb f) inv = true) by (apply existsb_exists; exists f; split; [exact C | apply Nat.eqb_refl]). congruence.
    - intros [H1 H2]. split; [lia|]. destruct (existsb (Nat.eqb f) inv) eqn:E; [|reflexivity]. apply existsb_exists in E as (g & Hg & E). apply Nat.eqb_eq in E as ->. contradiction.
  Qed.
  Lemma spect_same inv fr : (forall f, In f inv <-> In f fr) -> spect n inv = spect n fr.
  Proof. intros H. apply filter_ext. intros f. f_equal. apply Bool.eq_iff_eq_true. rewrite !existsb_exists. split; intros (g & Hg & E); exists g; (split; [now apply H|exact E]). Qed.
  Lemma si_layout si r inv : wide si -> r < nroots -> 0 < length si -> NoDup inv -> (forall f, In f inv -> f < n) ->
    exists d, make_fragments_slow s0 (si_slice lroots si r) (col r) inv = Ok d /\ snd (fst (snd d)) = prodN (sel (col r) inv) /\
      forall root e, root < length si -> in_range (col r) e -> si_at d root (pack (col r) inv e) (pack (col r) (spect n inv) e) = coeff si root r e.
  Proof.
    intros W Hr Hs Hd Hf. destruct (C19_make_slow_layout K s0 (col r) inv (length si) (si_slice lroots si r)) as (out & E & L & V).
    - apply Forall_forall. intros d Id. apply (In_nth _ _ 0) in Id as (f & Lf & <-). unfold col in Lf. rewrite col_len in Lf. now apply Hpos.
    - exact Hd.
    - apply Forall_forall. intros f If. unfold col. rewrite col_len. now apply Hf.
    - exact Hs.
    - now apply slice_len.
    - eexists. split; [exact E|]. split; [reflexivity|]. intros root e Hroot R. specialize (V e root R Hroot). rewrite slice_at in V by assumption. apply nth_error_nth with (d := s0) in V. unfold si_at. unfold pack, sel.
      assert (Es : PropTrans.spectators (length (col r)) inv = spect n inv) by (unfold col; rewrite col_len; reflexivity). rewrite Es in V |- *. exact V.
  Qed.

  (** contribution of one pair of rootspaces *)
  Definition fdm_value (sb sk : list (list K)) (root rb rk : nat) (fr : list nat) (m m' : list nat) : K :=
    nsum (col rb) (spect n fr) (fun e => nsum (col rk) (spect n fr) (fun e' =>
      smul (smul (sconj (coeff sb root rb e)) (lstd rb rk fr e e')) (coeff sk root rk e')) m') m.
  Lemma fdm_1space_ok sb sk rb rk inv fr : wide sb -> wide sk -> 0 < length sb -> 0 < length sk -> rb < nroots -> rk < nroots -> NoDup inv -> (forall f, In f fr -> f < n) -> (forall f, In f inv <-> In f fr) ->
    exists F, fdm_1space half big pyset lroots ovlp spin_shuffle frag_shuffle sb sk rb rk inv = Ok ((prodN (sel (col rb) inv), prodN (sel (col rk) inv)), F) /\
      forall root m m', root < length sb -> root < length sk -> in_range (col rb) m -> in_range (col rk) m' -> F root (pack (col rb) inv m) (pack (col rk) inv m') = fdm_value sb sk root rb rk fr m m'.
  Proof.
    intros Wb Wk Lb Lk Hb Hk Hd Hfr Hi. assert (Hf : forall f, In f inv -> f < n) by (intros f If; apply Hfr; now apply Hi).
    destruct (si_layout sb rb inv Wb Hb Lb Hd Hf) as (db & Eb & Nb & Vb). destruct (si_layout sk rk inv Wk Hk Lk Hd Hf) as (dk & Ek & Nk & Vk).
    unfold fdm_1space. fold (col rb) (col rk). rewrite Eb, Ek. cbn [bind]. rewrite Nb, Nk. eexists. split; [reflexivity|]. intros root m m' Hrb Hrk Rm Rm'.
    assert (Ep : pyset inv = pyset fr) by (apply Hpy; assumption). rewrite Ep.
    assert (Es : filter (fun f => negb (existsb (Nat.eqb f) (pyset fr))) (seq 0 (length lroots)) = spect n fr) by (apply (spect_same (pyset fr) fr); intros f; apply Hset). rewrite Es.
    set (fac := smul (smul (smul (spin_shuffle rb) (spin_shuffle rk)) (frag_shuffle rb (pyset fr))) (frag_shuffle rk (pyset fr))).
    set (sp := spect n fr). set (o := fold_left (fun o f => kron (ovlp f rb rk) o) sp [[fac]]).
    assert (Hsp : forall f, In f sp -> f < n) by (intros f If; now apply in_spec' in If).
    assert (Dsp : NoDup sp) by (apply NoDup_filter, seq_NoDup).
    destruct (spec_matrix (fun f => ovlp f rb rk) (col rb) (col rk) fac) with (l := sp) as [So Ho].
    { unfold col. now rewrite !col_len. }
    { intros f If. unfold col in If. rewrite col_len in If. apply Hov; auto. }
    { intros f If. unfold col. rewrite col_len. now apply Hsp. }
    fold o in So, Ho.
    rewrite bsum_flat_map, (proj1 So).
    set (a := pack (col rb) inv m). set (c := pack (col rk) inv m').
    transitivity (bsum (seq 0 (prodN (sel (col rb) sp))) (fun i => bsum (seq 0 (prodN (sel (col rk) sp))) (fun j =>
      let v := mat_at o i j in if big v && (if rb =? rk then j <=? i else true) then
        smul (smul (sconj (si_at db root a i)) (if (rb =? rk) && (i =? j) then smul v half else v)) (si_at dk root c j) else s0))).
    { apply bsum_ext. intros i Ii. apply in_seq in Ii. rewrite bsum_flat_map, (shaped_row o _ _ i So) by lia. apply bsum_ext. intros j _. unfold mat_at. cbn zeta.
      destruct (big (nth j (nth i o []) s0) && (if rb =? rk then j <=? i else true)); cbn [bsum]; [ring|reflexivity]. }
    pose proof (in_range_length _ _ Rm) as Lm. pose proof (in_range_length _ _ Rm') as Lm'. unfold col in Lm, Lm'. rewrite col_len in Lm, Lm'.
    etransitivity; [symmetry; apply (nsum_pack (col rb) sp Dsp _ m); intros f If; rewrite Lm; now apply Hsp|]. unfold fdm_value. fold sp.
    apply nsum_ext; [intros f If; rewrite Lm; now apply Hsp | exact Dsp |]. intros e Le Re Oe.
    etransitivity; [symmetry; apply (nsum_pack (col rk) sp Dsp _ m'); intros f If; rewrite Lm'; now apply Hsp|].
    apply nsum_ext; [intros f If; rewrite Lm'; now apply Hsp | exact Dsp |]. intros e' Le' Re' Oe'.
    assert (Ge : forall q x y, in_range (col q) x -> length y = length x -> (forall f, In f sp -> nth f y 0 < nth f (col q) 0) -> (forall f, ~ In f sp -> nth f y 0 = nth f x 0) -> in_range (col q) y /\ pack (col q) inv y = pack (col q) inv x).
    { intros q x y Rx Lx R O. split.
      - apply in_range_nth. apply in_range_nth in Rx as [L1 R1]. split; [congruence|]. intros f Hfl. destruct (in_dec Nat.eq_dec f sp) as [I|I]; [now apply R|]. rewrite O by exact I. now apply R1.
      - apply pack_ext; [reflexivity|]. intros f If. apply O. intros C. apply in_spec' in C as [_ C]. apply C. now apply Hi. }
    destruct (Ge rb m e Rm Le Re Oe) as [Rb Pb]. destruct (Ge rk m' e' Rm' Le' Re' Oe') as [Rk Pk].
    unfold a, c. rewrite <- Pb, <- Pk. specialize (Vb root e Hrb Rb). specialize (Vk root e' Hrk Rk). rewrite (spect_same inv fr Hi) in Vb, Vk. fold sp in Vb, Vk. rewrite Vb, Vk.
    rewrite (Ho e e' Rb Rk). unfold listed. fold n sp. cbn zeta. fold (col rb) (col rk).
    change (smul fac (bprod sp (fun f => mat_at (ovlp f rb rk) (nth f e 0) (nth f e' 0)))) with (weight pyset lroots ovlp spin_shuffle frag_shuffle rb rk fr e e').
    destruct (big _ && _); [reflexivity|ring].
  Qed.
End Fdm.
