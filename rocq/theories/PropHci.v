(** Theorems about the Hamiltonian on CI vectors contracted with SI vectors (property C80). *)
From Coq Require Import List ZArith Bool Arith Lia Permutation Ring QArith Qcanon.
From Verif Require Import Base BaseFacts Star AddrModel AddrFacts AddrSpec AddrProofs TransModel PropTrans StdmModel StdmFacts StdmSum RdmModel RdmSums RdmFdm OvlpFacts HamModel PropHam HciModel.
Import ListNotations.
Close Scope Qc_scope. Close Scope Q_scope.
Local Open Scope nat_scope.

(** fragments other than i; number of a state of the other fragments, the first of them running fastest *)
Definition others (lroots : list (list nat)) (i : nat) : list nat := filter (fun f => negb (f =? i)) (seq 0 (length lroots)).
Definition env_number (dims l e : list nat) : nat := colmajor (map (fun f => nth f dims 0) l) (map (fun f => nth f e 0) l).
(** coefficient of product state e of rootspace r in column n *)
Definition amplitude {K : star_ring} (lroots : list (list nat)) (v : sivec K) (n r : nat) (e : list nat) : K :=
  nth (states_before lroots r + colmajor (dims_of lroots r) e) (nth n (cols v) []) s0.
Definition long_enough {K : star_ring} (lroots : list (list nat)) (v : sivec K) : Prop :=
  Forall (fun c => length c = states_before lroots (length (hd [] lroots))) (cols v).

Section Hci.
  Context {K : star_ring}.
  Add Ring Kr : (sring K).
  Variables (lroots : list (list nat)).
  Hypothesis Hrect : Forall (fun row => length row = length (hd [] lroots)) lroots.
  Hypothesis Hpos : Forall (Forall (fun d => 0 < d)) lroots.
  Lemma dims_pos r f : r < length (hd [] lroots) -> f < length lroots -> 0 < nth f (dims_of lroots r) 0.
  Proof.
    intros Hr Hf. unfold dims_of. rewrite (nth_indep _ 0 (nth r [] 0)) by (rewrite map_length; exact Hf). rewrite (map_nth (fun row => nth r row 0) lroots [] f).
    rewrite Forall_forall in Hrect, Hpos. pose proof (nth_In lroots [] Hf) as I. specialize (Hrect _ I). specialize (Hpos _ I). rewrite Forall_forall in Hpos. apply Hpos, nth_In. lia.
  Qed.
  Lemma long_wide (v : sivec K) : long_enough lroots v -> wide lroots (cols v).
  Proof.
    intros L c r e Ic Hr R. unfold long_enough in L. rewrite Forall_forall in L. rewrite (L c Ic). unfold address. pose proof (colmajor_lt _ _ R) as C. pose proof (states_mono lroots (S r) _ Hr) as M. rewrite states_S in M. change (column lroots r) with (dims_of lroots r) in *. lia.
  Qed.

  Lemma nsum_start col l (F : list nat -> K) : forall e e', length e = length e' -> (forall f, In f l -> f < length e) -> (forall f, ~ In f l -> nth f e 0 = nth f e' 0) -> nsum col l F e = nsum col l F e'.
  Proof.
    induction l as [|g l IH]; intros e e' L Hl H; cbn [nsum].
    - f_equal. apply (nth_ext _ _ 0 0 L). intros f _. apply H. tauto.
    - apply bsum_ext. intros v _. apply IH; [now rewrite !put_len| intros f If; rewrite put_len; apply Hl; now right|]. intros f Nf. destruct (Nat.eq_dec f g) as [->|D].
      + rewrite !put_at; [reflexivity|rewrite <- L; apply Hl; now left|apply Hl; now left].
      + rewrite !put_other by exact D. apply H. intros [C|C]; [now symmetry in C|contradiction].
  Qed.
  Lemma sum_one x (G : K) : forall m s, bsum (seq s m) (fun v => if v =? x then G else s0) = if (s <=? x) && (x <? s + m) then G else s0.
  Proof.
    induction m as [|m IH]; intros s; cbn [seq bsum].
    - destruct (Nat.leb_spec s x), (Nat.ltb_spec x (s + 0)); cbn; try reflexivity; lia.
    - rewrite IH. destruct (Nat.eqb_spec s x), (Nat.leb_spec s x), (Nat.ltb_spec x (s + S m)), (Nat.leb_spec (S s) x), (Nat.ltb_spec x (S s + m)); cbn [andb]; try lia; ring.
  Qed.
  Lemma nsum_0 col l : forall e, nsum col l (fun _ => s0) e = s0 :> K.
  Proof. induction l as [|f l IH]; intros e; cbn [nsum]; [reflexivity|]. rewrite (bsum_ext K _ _ (fun _ => s0)) by (intros v _; apply IH). apply bsum_0. intros; reflexivity. Qed.
  Lemma idxs_fix dims (i x : nat) (G : list nat -> K) e0 : i < length dims -> in_range dims e0 -> nth i e0 0 = x ->
    bsum (idxs dims) (fun e => if nth i e 0 =? x then G e else s0) = nsum dims (filter (fun f => negb (f =? i)) (seq 0 (length dims))) G e0.
  Proof.
    intros Hi R0 E0. set (n := length dims). set (l := filter (fun f => negb (f =? i)) (seq 0 n)).
    assert (Dl : NoDup l) by (apply NoDup_filter, seq_NoDup). assert (Il : forall f, In f l <-> f < n /\ f <> i).
    { intros f. unfold l. rewrite filter_In, in_seq, negb_true_iff, Nat.eqb_neq. lia. }
    assert (P : Permutation (seq 0 n) (i :: l)).
    { apply NoDup_Permutation; [apply seq_NoDup| |].
      - constructor; [intros C; apply Il in C; lia|exact Dl].
      - intros f. cbn [In]. rewrite in_seq, Il. fold n in Hi. lia. }
    rewrite nsum_idxs. fold n. rewrite (nsum_perm _ _ _ _ P (seq_NoDup n 0)).
    pose proof (in_range_length _ _ R0) as L0. fold n in L0. cbn [nsum].
    assert (Hx : x < nth i dims 0) by (apply in_range_nth in R0 as [_ R0]; rewrite <- E0; apply R0; fold n; lia).
    rewrite (bsum_ext K (seq 0 (nth i dims 0)) _ (fun v => if v =? x then nsum dims l G e0 else s0)).
    2:{ intros v _. transitivity (nsum dims l (fun e => if v =? x then G e else s0) (put i v (repeat 0 n))).
        - apply nsum_ext; [intros f If; rewrite put_len, repeat_length; now apply Il|exact Dl|]. intros e' L _ O. rewrite (O i), put_at; [reflexivity|rewrite repeat_length; exact Hi|]. intros C. apply Il in C. lia.
        - destruct (Nat.eqb_spec v x) as [->|]; [|apply nsum_0]. apply nsum_start; [rewrite put_len, repeat_length; congruence|intros f If; rewrite put_len, repeat_length; now apply Il|].
          intros f Nf. destruct (Nat.eq_dec f i) as [->|D]; [rewrite put_at by (rewrite repeat_length; exact Hi); congruence|]. rewrite put_other by exact D.
          assert (n <= f) by (destruct (Nat.le_gt_cases n f); [assumption|]; exfalso; apply Nf, Il; lia). rewrite !nth_overflow; [reflexivity|lia|rewrite repeat_length; lia]. }
    rewrite sum_one. cbn [Nat.leb andb]. destruct (Nat.ltb_spec x (0 + nth i dims 0)); [reflexivity|lia].
  Qed.

  Lemma others_spect i : PropTrans.spectators (length lroots) [i] = others lroots i.
  Proof. unfold PropTrans.spectators, others. apply filter_ext. intros f. cbn [existsb]. now rewrite orb_false_r. Qed.
  Lemma bra_layout (v : sivec K) i j : long_enough lroots v -> i < length lroots -> j < length (hd [] lroots) -> 0 < length (cols v) ->
    exists d, make_fragments_slow s0 (si_slice lroots (cols v) j) (column lroots j) [i] = Ok d /\ fst (fst (snd d)) = prodN (sel (dims_of lroots j) (others lroots i)) /\ snd (snd d) = length (cols v) /\
      forall (H : nat -> K) n x, n < length (cols v) -> x < nth i (dims_of lroots j) 0 ->
        bsum (seq 0 (prodN (sel (dims_of lroots j) (others lroots i)))) (fun p => smul (sconj (si_at d n x p)) (H p)) =
        bsum (idxs (dims_of lroots j)) (fun e => if nth i e 0 =? x then smul (sconj (amplitude lroots v n j e)) (H (env_number (dims_of lroots j) (others lroots i) e)) else s0).
  Proof.
    intros L Hi Hj H0. assert (Hp : forall r f, r < length (hd [] lroots) -> f < length lroots -> 0 < nth f (column lroots r) 0) by exact dims_pos.
    destruct (si_layout lroots Hp (cols v) j [i] (long_wide v L) Hj H0) as (d & E & _ & V).
    { repeat constructor; cbn; tauto. } { intros f [<-|[]]; exact Hi. }
    change (column lroots j) with (dims_of lroots j) in *. set (dims := dims_of lroots j) in *.
    assert (Ld : length dims = length lroots) by (unfold dims, dims_of; now rewrite map_length).
    destruct (C19_make_slow_layout K s0 dims [i] (length (cols v)) (si_slice lroots (cols v) j)) as (out & E' & _).
    - apply Forall_forall. intros x Ix. apply (In_nth _ _ 0) in Ix as (f & Lf & <-). apply Hp; [exact Hj|lia].
    - repeat constructor; cbn; tauto.
    - repeat constructor. lia.
    - exact H0.
    - apply (slice_len lroots Hp); [now apply long_wide|exact Hj].
    - rewrite E in E'. inversion E'; subst d. cbn [fst snd]. rewrite Ld, others_spect in *. exists (out, (prodN (sel dims (others lroots i)), prodN (map (fun i0 => nth i0 dims 0) [i]), length (cols v))). split; [exact E|]. split; [reflexivity|]. split; [reflexivity|].
      intros H n x Hn Hx. match type of V with context [si_at ?a _ _ _] => set (d := a) in * end.
      change (out, (prodN (sel dims (others lroots i)), prodN (map (fun i0 => nth i0 dims 0) [i]), length (cols v))) with d.
      set (e0 := put i x (repeat 0 (length dims))).
      assert (R0 : in_range dims e0).
      { apply in_range_nth. split; [unfold e0; now rewrite put_len, repeat_length|]. intros f Hf. unfold e0. destruct (Nat.eq_dec f i) as [->|D]; [rewrite put_at by (rewrite repeat_length; lia); exact Hx|]. rewrite put_other by exact D.
        rewrite nth_repeat. apply Hp; [exact Hj|]. unfold e0 in Hf. rewrite ?put_len, ?repeat_length in Hf. lia. }
      assert (X0 : nth i e0 0 = x) by (unfold e0; apply put_at; rewrite repeat_length; lia).
      rewrite (idxs_fix dims i x _ e0 ltac:(lia) R0 X0). rewrite Ld. change (filter (fun f => negb (f =? i)) (seq 0 (length lroots))) with (others lroots i).
      assert (Io : forall f, In f (others lroots i) <-> f < length lroots /\ f <> i) by (intros f; unfold others; rewrite filter_In, in_seq, negb_true_iff, Nat.eqb_neq; lia).
      assert (Do : NoDup (others lroots i)) by (apply NoDup_filter, seq_NoDup). pose proof (in_range_length _ _ R0) as L0.
      etransitivity; [symmetry; apply (nsum_pack dims (others lroots i) Do _ e0); intros f If; apply Io in If; lia|].
      apply nsum_ext; [intros f If; apply Io in If; lia|exact Do|]. intros e Le Re Oe. change (env_number dims (others lroots i) e) with (pack dims (others lroots i) e).
      assert (Xe : nth i e 0 = x) by (rewrite Oe, X0; [reflexivity|intros C; apply Io in C; lia]).
      assert (R : in_range dims e).
      { apply in_range_nth. split; [congruence|]. intros f Hf. destruct (Nat.eq_dec f i) as [->|D]; [rewrite Xe; exact Hx|]. apply Re, Io. lia. }
      specialize (V n e Hn R). change (StdmSum.spectators (length lroots) [i]) with (PropTrans.spectators (length lroots) [i]) in V. rewrite others_spect in V. unfold pack at 1, sel at 1 2 in V. cbn [map colmajor] in V. rewrite Xe in V.
      replace (x + nth i dims 0 * 0) with x in V by lia. rewrite V. reflexivity.
  Qed.
End Hci.

(** The element at x of the contraction for fragment i and rootspace j: the sum, over the product states of the rootspace in which fragment i is in
    state x, of the conjugate of their amplitude in the bra times the element of H|ci>|ket> for the states of the other fragments. *)
Definition contracted {K : star_ring} (lroots : list (list nat)) (i j : nat) (bra : sivec K) (n x : nat) (Hket : nat -> K) : K :=
  bsum (idxs (dims_of lroots j)) (fun e => if nth i e 0 =? x then smul (sconj (amplitude lroots bra n j e)) (Hket (env_number (dims_of lroots j) (others lroots i) e)) else s0).

(** C80: for SI vectors of either kind, and for the bra alone; unequal numbers of columns are refused *)
Theorem C80_contraction : forall (K : star_ring) lroots i j nq (hci : nat -> nat -> nat -> K) (bra : sivec K),
  Forall (fun row => length row = length (hd [] lroots)) lroots -> Forall (Forall (fun d => 0 < d)) lroots -> i < length lroots -> j < length (hd [] lroots) ->
  long_enough lroots bra -> 0 < length (cols bra) ->
  let np := prodN (map (fun f => nth f (dims_of lroots j) 0) (others lroots i)) in
  let d := nth i (dims_of lroots j) 0 in
  (exists r, hci_dot lroots i j np nq hci (Some bra) None = Ok (BraOnly r) /\
     forall n x ab q, n < length (cols bra) -> x < d -> r n x ab q = contracted lroots i j bra n x (fun p => hci p ab q)) /\
  (forall ket, Forall (fun c => length c = nq) (cols ket) ->
     let Hket ab m p := bsum (seq 0 nq) (fun q => smul (hci p ab q) (nth q (nth m (cols ket) []) s0)) in
     (length (cols bra) <> length (cols ket) -> hci_dot lroots i j np nq hci (Some bra) (Some ket) = Raise AssertionError) /\
     (length (cols bra) = length (cols ket) -> exists out, hci_dot lroots i j np nq hci (Some bra) (Some ket) = Ok out /\
        match bra, ket with
        | Many _, Many _ => exists r, out = Both2 r /\ forall n x ab, n < length (cols bra) -> x < d -> r n x ab = contracted lroots i j bra n x (Hket ab n)
        | _, _ => exists r, out = Both1 r /\ forall x ab, x < d -> r x ab = contracted lroots i j bra 0 x (Hket ab 0)
        end)).
Proof.
  intros K lroots i j nq hci bra Hr Hp Hi Hj L H0 np d. destruct (bra_layout lroots Hr Hp bra i j L Hi Hj H0) as ([v [[nc nr] ns]] & E & Ec & En & V). cbn [fst snd] in Ec, En.
  change (prodN (sel (dims_of lroots j) (others lroots i))) with np in *. subst nc ns. split.
  - unfold hci_dot. cbn [negb]. rewrite E. cbn [bind]. rewrite Nat.eqb_refl. cbn [negb]. eexists. split; [reflexivity|]. intros n x ab q Hn Hx. exact (V (fun p => hci p ab q) n x Hn Hx).
  - intros ket Hk Hket. unfold hci_dot. assert (Fk : forallb (fun c => length c =? nq) (cols ket) = true).
    { apply forallb_forall. intros c Ic. rewrite Forall_forall in Hk. apply Nat.eqb_eq. now apply Hk. }
    rewrite Fk. cbn [negb]. rewrite E. cbn [bind]. rewrite Nat.eqb_refl. cbn [negb]. split.
    + intros D. destruct ket as [c|cs]; cbn [cols length] in D |- *; apply Nat.eqb_neq in D; cbn [cols length] in *; rewrite D; reflexivity.
    + intros D. destruct ket as [c|cs]; cbn [cols length] in D.
      * rewrite D. cbn [Nat.eqb]. eexists. split; [reflexivity|]. destruct bra; (eexists; split; [reflexivity|]; intros x ab Hx; exact (V (Hket ab 0) 0 x H0 Hx)).
      * rewrite D, Nat.eqb_refl. cbn [negb]. destruct bra as [b|bs]; (eexists; split; [reflexivity|]; eexists; split; [reflexivity|]).
        -- intros x ab Hx. exact (V (Hket ab 0) 0 x H0 Hx).
        -- intros n x ab Hn Hx. rewrite <- D in Hn. exact (V (Hket ab n) n x Hn Hx).
Qed.
Print Assumptions C80_contraction.

(** C80: the Hamiltonian h0 + h_re + i h_im, the imaginary part only with spin-orbit coupling *)
Definition full_ham {K : star_ring} (im : K) (soc : bool) (h0 : K) (h_re h_im : (nat -> K) -> nat -> K) (c : nat -> K) (x : nat) : K :=
  sadd (smul h0 (c x)) (sadd (h_re c x) (if soc then smul im (h_im c x) else s0)).
(** without spin-orbit coupling contract_h is that Hamiltonian; with it, the constant is counted once too often *)
Theorem C80_constant : forall (K : star_ring) (im h0 : K) h_re h_im c x,
  contract_h im false h0 h_re h_im c x = full_ham im false h0 h_re h_im c x /\
  contract_h im true h0 h_re h_im c x = sadd (full_ham im true h0 h_re h_im c x) (smul h0 (c x)) /\
  (h0 = s0 -> contract_h im true h0 h_re h_im c x = full_ham im true h0 h_re h_im c x).
Proof.
  intros K im h0 h_re h_im c x. pose proof (sring K) as R. unfold contract_h, full_ham. cbv zeta. destruct R as [A0 A1 A2 _ M1 _ D _ _].
  assert (Z : forall y : K, smul s0 y = s0).
  { intros y. exact (Ring_theory.ARmul_0_l (Rth_ARth (Eqsth K) (Eq_ext sadd smul sopp) (sring K)) y). }
  repeat split.
  - rewrite (A1 (h_re c x)), (A1 (h_re c x) s0), A0. reflexivity.
  - f_equal. rewrite (A1 (h_re c x)), <- A2. reflexivity.
  - intros ->. rewrite !Z. rewrite (A1 _ s0), A0, (A1 _ s0), A0, A0. reflexivity.
Qed.
Print Assumptions C80_constant.
Theorem C80_constant_refuted : exists (h0 : Cq) h_re h_im c, contract_h (cz 0 1) true h0 h_re h_im c 0 <> full_ham (cz 0 1) true h0 h_re h_im c 0.
Proof.
  exists (cz 3 0), (fun c x => c x), (fun c x => c x), (fun _ => cz 1 0). intros E. apply (f_equal (fun v : Cq => this (fst v))) in E. vm_compute in E. discriminate E.
Qed.
Print Assumptions C80_constant_refuted.

(** two fragments with 2 and 3 states in the first rootspace, 1 and 2 in the second *)
Definition h_lr : list (list nat) := [[2; 1]; [3; 2]].
Definition h_bra : sivec Cq := Many [map (fun k => cz (Z.of_nat k) 1) (seq 0 8); map (fun k => cz 1 (Z.of_nat (k * k))) (seq 0 8)].
Definition h_ket : sivec Cq := Many [[cz 1 0; cz 0 2]; [cz 3 1; cz (-1) 0]].
Definition h_hci (p ab q : nat) : Cq := cz (Z.of_nat (p + 2 * ab + 5 * q)) (Z.of_nat (p * ab)).
Example C80_example :
  match hci_dot h_lr 0 0 3 2 h_hci (Some h_bra) (Some h_ket) with
  | Ok (Both2 r) => ceq (r 1 1 1) (cz (247) (-9)) && ceq (r 0 0 2) (cz (60) (145)) = true
  | _ => False
  end /\ match hci_dot h_lr 0 0 3 2 h_hci (Some h_bra) (Some (One [cz 1 0; cz 0 2])) with Raise AssertionError => true | _ => false end = true.
Proof. split; vm_compute; reflexivity. Qed.
