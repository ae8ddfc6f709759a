(** Properties C29-C33: state tables, orbital slices and argument passing of the LASCI object. *)
From Coq Require Import List ZArith Arith Bool Lia.
From Verif Require Import Base BaseFacts LasModel LasSpec LasFacts.
Import ListNotations.
Local Open Scope Z_scope.

(** ** C29 requested quantum numbers *)

(** The numbers reported afterwards are those asked for exactly when the number of electrons and the
    spin projection have the same parity; spin, multiplicity and irrep are always as asked for. *)
Theorem C29_honoured_partial {C} (l l' : las C) nw charges spins smults wfnsyms nd r f ne :
  state_average_ l nw charges spins smults wfnsyms nd = Ok l' ->
  (r < nw)%nat -> nth_error (las_nelec l) f = Some ne ->
  let q := requested ne charges spins smults wfnsyms r f in
  exists q', reported l' r f = Some q' /\
    q_spin q' = q_spin q /\ q_smult q' = q_smult q /\ q_wfnsym q' = q_wfnsym q /\
    (q' = q <-> Z.Even (fst ne + snd ne - q_charge q + q_spin q)).
Proof.
  intros H Hr Hf q. destruct (state_average_inv _ _ _ _ _ _ _ _ H) as (_ & _ & _ & _ & EN & ER & new & _ & _ & _ & I & _).
  destruct (I r f ne Hr Hf) as (q0 & E0 & E). subst q0. fold q in E.
  exists (info_at l' r f). rewrite reported_at.
  - rewrite E. cbn [q_charge q_spin q_smult q_wfnsym]. repeat split; auto.
    + intros X. apply Z.even_spec. destruct (Z.even _); auto. destruct q; cbn in *. inversion X. lia.
    + intros X. apply Z.even_spec in X. rewrite X. destruct q; cbn. f_equal. lia.
  - rewrite ER; auto.
  - unfold nfrags. rewrite EN. eapply nth_error_Some_lt; eauto.
Qed.
Print Assumptions C29_honoured_partial.

(** In particular with default charges and spins. *)
Theorem C29_defaults {C} (l l' : las C) nw smults wfnsyms nd r f ne :
  state_average_ l nw None None smults wfnsyms nd = Ok l' ->
  (r < nw)%nat -> nth_error (las_nelec l) f = Some ne ->
  reported l' r f = Some (requested ne None None smults wfnsyms r f).
Proof.
  intros H Hr Hf. destruct (C29_honoured_partial _ _ _ _ _ _ _ _ _ _ _ H Hr Hf) as (q' & E & _ & _ & _ & [_ G]).
  rewrite E, G; auto. cbn. exists (fst ne). lia.
Qed.
Print Assumptions C29_defaults.

(** Read back from any object: a solver that carries no multiplicity is reported with the least one for its spin
    projection, 2|m|+1; one without charge and spin as neutral with the projection 0 or 1/2. *)
Theorem C29_unset {C} (l : las C) r f ne box s : (r < las_nroots l)%nat ->
  nth_error (las_nelec l) f = Some ne -> nth_error (las_boxes l) f = Some box -> nth_error box r = Some s ->
  exists q, reported l r f = Some q /\
    (s_smult s = None -> q_smult q = Z.abs (q_spin q) + 1) /\ (s_wfnsym s = None -> q_wfnsym q = 0) /\
    (s_charge s = None -> s_spin s = None -> q_charge q = 0 /\ q_spin q = (fst ne + snd ne) mod 2).
Proof.
  intros Hr Hf Hb Hs. exists (info_at l r f). split; [apply reported_at; [exact Hr | unfold nfrags; apply nth_error_Some; now rewrite Hf]|].
  unfold info_at. rewrite Hb, Hf, Hs. unfold info. cbn [q_smult q_spin q_wfnsym q_charge]. split; [now intros ->|]. split; [now intros ->|].
  intros Ec Es. unfold get_nelec. rewrite Ec, Es. cbn [fst snd]. rewrite Z.sub_0_r.
  generalize (fst ne + snd ne) as n. intros n. pose proof (Z.mod_pos_bound n 2 ltac:(lia)). pose proof (Z.div_mod n 2 ltac:(lia)).
  assert (E1 : (n + n mod 2) / 2 = n / 2 + n mod 2) by (symmetry; apply Z.div_unique with (r := 0); lia).
  assert (E2 : (n - n mod 2) / 2 = n / 2) by (symmetry; apply Z.div_unique with (r := 0); lia). rewrite E1, E2. lia.
Qed.
Print Assumptions C29_unset.
Example C29_unset_example : reported (mkLas (C:=nat) [(2, 2); (2, 1)] 1 [[mkSolver None (Some (-2)) None None]; [mkSolver None None None None]] None) 0 0
  = Some (mkQ 0 (-2) 3 0).
Proof. reflexivity. Qed.

(** A request of the wrong parity is neither refused nor honoured: an electron is dropped. *)
Theorem C29_refuted : exists (l l' : las nat) nw charges spins smults,
  state_average_ l nw charges spins smults None true = Ok l' /\
  exists r f q ne, (r < nw)%nat /\ nth_error (las_nelec l) f = Some ne /\ reported l' r f = Some q /\
    q <> requested ne charges spins smults None r f.
Proof.
  exists (mkLas [(2, 2); (2, 2)] 1 [[mkSolver None (Some 0) (Some 1) None]; [mkSolver None (Some 0) (Some 1) None]] None).
  eexists. exists 1%nat, (Some [[1; -1]]), (Some [[0; 0]]), (Some [[1; 1]]). split; [reflexivity|].
  exists 0%nat, 0%nat, (mkQ 2 0 1 0), (2, 2). repeat split; auto; try lia. discriminate.
Qed.
Print Assumptions C29_refuted.

(** A triplet pair of charged fragments, as asked for. *)
Example C29_example :
  match state_average_ (C:=nat)
    (mkLas [(2, 2); (2, 2)] 1 [[mkSolver None (Some 0) (Some 1) None]; [mkSolver None (Some 0) (Some 1) None]] None)
    2 (Some [[1; -1]; [0; 0]]) (Some [[1; -1]; [2; -2]]) None None true with
  | Ok l' => get_space_info l' = [[mkQ 1 1 2 0; mkQ (-1) (-1) 2 0]; [mkQ 0 2 3 0; mkQ 0 (-2) 3 0]]
  | Raise _ => False
  end.
Proof. reflexivity. Qed.

(** ** C30 CI vectors follow their quantum numbers *)
Lemma rows_same {C} (l : las C) charges spins smults wfnsyms i j row row' :
  nth_error (get_space_info l) i = Some row' -> (i < las_nroots l)%nat ->
  length row = nfrags l ->
  (forall f ne, nth_error (las_nelec l) f = Some ne -> nth_error row f = Some (requested ne charges spins smults wfnsyms j f)) ->
  row' = row <-> same_numbers l charges spins smults wfnsyms i j.
Proof.
  intros Hi Li Lr Hrow. destruct (old_row l i Li) as (r0 & E0 & L0 & G0). rewrite Hi in E0. inversion E0; subst r0.
  split.
  - intros -> f ne Hf. rewrite <- G0. apply Hrow; auto.
  - intros S. apply list_ext. intros f.
    destruct (nth_error (las_nelec l) f) as [ne|] eqn:E.
    + rewrite G0, (S f ne E), (Hrow f ne E). auto.
    + apply nth_error_None in E. unfold nfrags in *. 
      rewrite (proj2 (nth_error_None row' f)), (proj2 (nth_error_None row f)); auto; lia.
Qed.

Lemma C30_core {C} (l l' : las C) nw charges spins smults wfnsyms nd ci :
  state_average_ l nw charges spins smults wfnsyms nd = Ok l' ->
  las_ci l = Some ci -> length ci = nfrags l ->
  exists ci', las_ci l' = Some ci' /\ well_shaped (nfrags l) nw ci' /\
  forall j, (j < nw)%nat ->
    ((forall i, (i < las_nroots l)%nat -> ~ same_numbers l charges spins smults wfnsyms i j) /\
      (forall f, (f < nfrags l)%nat -> ci_at ci' f j = None)) \/
    (exists i, (i < las_nroots l)%nat /\ same_numbers l charges spins smults wfnsyms i j /\
       forall f, (f < nfrags l)%nat -> ci_at ci' f j = ci_at ci f i).
Proof.
  intros H EC LC. destruct (state_average_inv _ _ _ _ _ _ _ _ H) as (_ & _ & _ & _ & EN & ER & new & LN & HN & _ & _ & T).
  rewrite EC in T. destruct T as (ci' & E' & T). exists ci'. split; auto.
  assert (W0 : well_shaped (A:=option C) (nfrags l) nw (repeat (repeat None nw) (nfrags l))).
  { split; [apply repeat_length|]. apply Forall_forall. intros x Hx. apply repeat_spec in Hx. subst x. apply repeat_length. }
  destruct (transfer_spec new ci (nfrags l) nw _ _ _ _ W0 (eq_sym LN) LC T) as [W G].
  split; auto. intros j Hj. destruct (HN j Hj) as (row & Hrow & Lrow & Grow).
  destruct (G j row Hrow) as [[N E]|(k & K1 & K2 & K3)].
  - left. split.
    + intros i Hi S. destruct (old_row l i Hi) as (r0 & E0 & L0 & G0).
      apply (N i). rewrite E0. f_equal. eapply rows_same; eauto.
    + intros f Hf. rewrite E by auto. unfold ci_at. rewrite (nth_error_nth' _ []) by (rewrite repeat_length; auto).
      rewrite nth_repeat_in by auto. destruct (nth_error (repeat None nw) j) eqn:Q; auto.
      apply nth_error_In, repeat_spec in Q. auto.
  - right. exists k. assert (Hk : (k < las_nroots l)%nat).
    { apply nth_error_Some_lt in K1. unfold get_space_info in K1. rewrite map_length, seq_length in K1. auto. }
    split; auto. split; auto. apply (rows_same l charges spins smults wfnsyms k j row row K1 Hk Lrow Grow). auto.
Qed.

(** No CI vector is attached to a state with other quantum numbers. *)
Theorem C30_only_matching {C} (l l' : las C) nw charges spins smults wfnsyms nd ci :
  state_average_ l nw charges spins smults wfnsyms nd = Ok l' ->
  las_ci l = Some ci -> length ci = nfrags l ->
  exists ci', las_ci l' = Some ci' /\ well_shaped (nfrags l) nw ci' /\
  forall f j c, (f < nfrags l)%nat -> (j < nw)%nat -> ci_at ci' f j = Some c ->
  exists i, (i < las_nroots l)%nat /\ same_numbers l charges spins smults wfnsyms i j /\ ci_at ci f i = Some c.
Proof.
  intros H EC LC. destruct (C30_core _ _ _ _ _ _ _ _ _ H EC LC) as (ci' & E & W & G). exists ci'. repeat split; try apply W; auto.
  intros f j c Hf Hj Hc. destruct (G j Hj) as [[_ N]|(i & Hi & S & K)].
  - rewrite N in Hc; auto. discriminate.
  - exists i. rewrite <- K; auto.
Qed.
Print Assumptions C30_only_matching.

(** A state that existed once before keeps all its CI vectors. *)
Theorem C30_unique_kept {C} (l l' : las C) nw charges spins smults wfnsyms nd ci i j :
  state_average_ l nw charges spins smults wfnsyms nd = Ok l' ->
  las_ci l = Some ci -> length ci = nfrags l ->
  (j < nw)%nat -> (i < las_nroots l)%nat -> same_numbers l charges spins smults wfnsyms i j ->
  (forall i', (i' < las_nroots l)%nat -> same_numbers l charges spins smults wfnsyms i' j -> i' = i) ->
  exists ci', las_ci l' = Some ci' /\ forall f, (f < nfrags l)%nat -> ci_at ci' f j = ci_at ci f i.
Proof.
  intros H EC LC Hj Hi S U. destruct (C30_core _ _ _ _ _ _ _ _ _ H EC LC) as (ci' & E & W & G). exists ci'. split; auto.
  destruct (G j Hj) as [[N _]|(k & Hk & Sk & K)].
  - destruct (N i Hi S).
  - rewrite <- (U k Hk Sk). auto.
Qed.
Print Assumptions C30_unique_kept.

(** With the duplicate check on, distinct well-shaped requests are never refused. *)
Theorem C30_succeeds {C} (l : las C) nw charges spins smults wfnsyms :
  given_shape nw (nfrags l) charges -> given_shape nw (nfrags l) spins ->
  given_shape nw (nfrags l) smults -> given_shape nw (nfrags l) wfnsyms ->
  match las_ci l with Some ci => well_shaped (nfrags l) (las_nroots l) ci | None => True end ->
  (forall r r', (r < r' < nw)%nat -> exists f ne, nth_error (las_nelec l) f = Some ne /\
     requested ne charges spins smults wfnsyms r f <> requested ne charges spins smults wfnsyms r' f) ->
  exists l', state_average_ l nw charges spins smults wfnsyms true = Ok l'.
Proof.
  intros Gc Gs Gm Gw Wci ND. destruct (state_average_ l nw charges spins smults wfnsyms true) as [l'|e] eqn:E; [eauto|exfalso].
  revert E. unfold state_average_.
  set (nf := nfrags l) in *.
  set (ch := match charges with Some t => t | None => _ end).
  set (wf := match wfnsyms with Some t => t | None => _ end).
  set (sp := match spins with Some t => t | None => _ end).
  set (sm := match smults with Some t => t | None => _ end).
  assert (Z0 : well_shaped nw nf (repeat (repeat 0 nf) nw)).
  { rewrite <- (repeat_length 0 nf) at 1. apply well_shaped_repeat. }
  assert (Sc : well_shaped nw nf ch) by (unfold ch; destruct charges; auto).
  assert (Sw : well_shaped nw nf wf) by (unfold wf; destruct wfnsyms; auto).
  assert (Ss : well_shaped nw nf sp).
  { unfold sp; destruct spins; auto. unfold nf, nfrags. rewrite <- (map_length (fun n : Z * Z => fst n - snd n) (las_nelec l)).
    apply well_shaped_repeat. }
  assert (Sm : well_shaped nw nf sm) by (unfold sm; destruct smults; auto; apply well_shaped_map; auto).
  assert (SH : forallb (shape_ok nw nf) [ch; sp; sm; wf] = true).
  { cbn [forallb]. rewrite !andb_true_iff, !shape_ok_spec. auto. }
  rewrite SH. cbn [negb andb]. set (new := map _ (seq 0 nw)).
  assert (RQ : forall r f ne, (r < nw)%nat -> nth_error (las_nelec l) f = Some ne ->
    mkQ (at_ ch r f) (at_ sp r f) (at_ sm r f) (at_ wf r f) = requested ne charges spins smults wfnsyms r f).
  { intros r f ne Hr Hf. assert (Hf' : (f < nf)%nat) by (eapply nth_error_Some_lt; eauto).
    assert (Esp : at_ sp r f = req_spin ne spins r f).
    { unfold sp, req_spin, at_. destruct spins; auto. rewrite nth_repeat_in by auto.
      apply nth_error_nth. rewrite (map_nth_error (fun n : Z * Z => fst n - snd n) _ _ Hf); auto. }
    unfold requested. f_equal; auto.
    - unfold ch, at_. destruct charges; auto. rewrite nth_repeat_in by auto. apply nth_repeat_in; auto.
    - rewrite <- Esp. unfold sm. destruct smults; auto. apply (table_map (fun m => Z.abs m + 1) sp nw nf); auto.
    - unfold wf, at_. destruct wfnsyms; auto. rewrite nth_repeat_in by auto. apply nth_repeat_in; auto. }
  assert (D : no_dupes new = true).
  { assert (DD : forall r r' row, (r < r')%nat -> nth_error new r = Some row -> nth_error new r' = Some row -> False).
    { intros r r' row Hrr E1 E2. assert (Hr' : (r' < nw)%nat).
      { apply nth_error_Some_lt in E2. unfold new in E2. rewrite map_length, seq_length in E2. auto. }
      destruct (ND r r') as (f & ne & Hf & Hne); [lia|]. apply Hne.
      assert (Hff : (f < nf)%nat) by (eapply nth_error_Some_lt; eauto).
      unfold new in E1, E2. rewrite nth_error_map_seq in E1, E2 by lia.
      inversion E1 as [X1]. inversion E2 as [X2]. rewrite <- X2 in X1. apply (f_equal (fun x => nth_error x f)) in X1.
      rewrite !nth_error_map_seq in X1 by auto. rewrite <- !RQ; auto; try lia. inversion X1; auto. }
    clear -DD. induction new as [|x new IH]; cbn; auto. apply andb_true_iff. split.
    - apply negb_true_iff. destruct (existsb (row_eqb x) new) eqn:E; auto. exfalso.
      apply existsb_exists in E as (y & Hy & Q). apply row_eqb_eq in Q; subst y.
      apply In_nth_error in Hy as [k Hk]. apply (DD 0%nat (S k) x); auto; lia.
    - apply IH. intros r r' row Hr E1 E2. apply (DD (S r) (S r') row); auto. lia. }
  rewrite D. cbn [negb]. destruct (las_ci l) as [ci|] eqn:EC; [|discriminate].
  destruct (transfer_total new ci nf (las_nroots l) D Wci (get_space_info l) 0%nat (repeat (repeat None nw) nf)) as [ci' ->].
  { unfold get_space_info. rewrite map_length, seq_length. lia. }
  discriminate.
Qed.
Print Assumptions C30_succeeds.

(** Two old states swap places, a third appears. *)
Example C30_example :
  match state_average_ 
    (mkLas [(1, 1); (1, 1)] 2
       [[mkSolver None (Some 0) (Some 1) None; mkSolver None (Some 2) (Some 3) None];
        [mkSolver None (Some 0) (Some 1) None; mkSolver None (Some (-2)) (Some 3) None]]
       (Some [[Some 10; Some 11]; [Some 20; Some 21]]%nat))
    3 None (Some [[2; -2]; [0; 2]; [0; 0]]) None None true with
  | Ok l' => las_ci l' = Some [[Some 11; None; Some 10]; [Some 21; None; Some 20]]%nat
  | Raise _ => False
  end.
Proof. reflexivity. Qed.

(** ** C31 orbital slices *)
Theorem C31_block {M} (mo : list M) ncore sizes i n : nth_error sizes i = Some n ->
  (ncore + list_sum sizes <= length mo)%nat ->
  exists blk, get_mo_slice mo ncore sizes (Z.of_nat i) = Ok blk /\ length blk = n /\
    forall k, (k < n)%nat -> nth_error blk k = nth_error mo (ncore + list_sum (firstn i sizes) + k).
Proof.
  intros H L. eexists; split; [apply slice_spec; eauto|].
  assert (S : (list_sum (firstn i sizes) + n <= list_sum sizes)%nat).
  { clear L. revert i H. induction sizes as [|s sizes IH]; intros [|i] H; cbn in *; try discriminate.
    - inversion H; subst. lia.
    - specialize (IH i H). change (fold_right Nat.add 0%nat) with list_sum. lia. }
  split.
  - rewrite firstn_length, skipn_length. lia.
  - intros k Hk. rewrite nth_error_firstn. destruct (Nat.ltb_spec k n); [|lia].
    generalize (ncore + list_sum (firstn i sizes))%nat as a. clear. intros a; revert mo.
    induction a; intros mo; cbn; auto. destruct mo; cbn; auto. destruct k; auto.
Qed.
Print Assumptions C31_block.

(** Together the blocks are the active columns, each exactly once and in order. *)
Theorem C31_partition {M} (mo : list M) ncore sizes blocks :
  Forall2 (fun i b => get_mo_slice mo ncore sizes (Z.of_nat i) = Ok b) (seq 0 (length sizes)) blocks ->
  concat blocks = firstn (list_sum sizes) (skipn ncore mo).
Proof.
  intros F. rewrite <- blocks_cover. rewrite flat_map_concat_map. f_equal.
  assert (G : forall is bs, Forall2 (fun i b => get_mo_slice mo ncore sizes (Z.of_nat i) = Ok b) is bs ->
    Forall (fun i => (i < length sizes)%nat) is ->
    bs = map (fun i => firstn (nth i sizes 0%nat) (skipn (ncore + list_sum (firstn i sizes)) mo)) is).
  { induction 1 as [|i b is bs E F' IH]; intros A; auto. inversion A; subst. cbn [map]. f_equal; auto.
    rewrite (slice_spec mo ncore sizes i (nth i sizes 0%nat)) in E; [|apply nth_error_nth'; auto]. inversion E; auto. }
  apply G; auto. apply Forall_forall. intros i Hi. apply in_seq in Hi. lia.
Qed.
Print Assumptions C31_partition.

(** Negative indices count from the end, others out of range are refused. *)
Theorem C31_other_indices {M} (mo : list M) ncore sizes i :
  (- Z.of_nat (length sizes) <= i < 0 ->
     get_mo_slice mo ncore sizes i = get_mo_slice mo ncore sizes (i + Z.of_nat (length sizes))) /\
  (i < - Z.of_nat (length sizes) \/ Z.of_nat (length sizes) <= i -> get_mo_slice mo ncore sizes i = Raise IndexError).
Proof. split; [apply slice_neg|apply slice_out]. Qed.
Print Assumptions C31_other_indices.

Example C31_example :
  map (get_mo_slice (seq 0 10) 2 [3; 1; 2]%nat) [0; 1; 2; -1; 3]
  = [Ok [2; 3; 4]; Ok [5]; Ok [6; 7]; Ok [6; 7]; Raise IndexError]%nat.
Proof. reflexivity. Qed.

(** ** C32 convergence flag *)

(** The flag is true whatever the solvers report. *)
Theorem C32_always_true solvers : converged_flag solvers = true.
Proof. reflexivity. Qed.
Print Assumptions C32_always_true.
Theorem C32_refuted : exists solvers, ~ (converged_flag solvers = true <-> Forall (fun c => c <> Some false) solvers).
Proof.
  exists [Some true; Some false]. intros [H _]. specialize (H eq_refl).
  inversion H as [|? ? _ H']; subst. inversion H'; subst. congruence.
Qed.
Print Assumptions C32_refuted.
Example C32_example : converged_flag [Some true; Some false; None] = true.
Proof. reflexivity. Qed.

(** ** C33 arguments per solver *)
Section C33.
Context {V K : Type} (sub : V -> nat -> res V) (none : V).
(** what solver i should be given for an argument *)
Inductive proper_share (i : nat) : arg V -> given V -> Prop :=
| ps_plain v : proper_share i (Plain v) (GVal v)
| ps_none : proper_share i (PerItem None) (GVal none)
| ps_elem l v : nth_error l i = Some v -> proper_share i (PerItem (Some l)) (GVal v).

Lemma hand_proper a t i g : is_per t = is_per a -> hand sub none t a i = Ok g -> proper_share i a g.
Proof.
  unfold hand. intros E. rewrite E. destruct a as [[l|]|v]; cbn; intros H.
  - destruct (nth_error l i) as [v|] eqn:N; cbn in H; [|discriminate]. inversion H; subst. constructor; auto.
  - inversion H; subst; constructor.
  - inversion H; subst; constructor.
Qed.
Lemma mapM_Forall2 {A B} (g : A -> res B) l l' : mapM g l = Ok l' -> Forall2 (fun a b => g a = Ok b) l l'.
Proof.
  revert l'. induction l as [|a l IH]; intros l' H; cbn in H.
  - inversion H; constructor.
  - destruct (g a) eqn:E; cbn in H; [|discriminate]. destruct (mapM g l); cbn in H; [|discriminate].
    inversion H; subst. constructor; auto.
Qed.

Lemma loop_civecs_at n (args : list (arg V)) (kwargs : list (K * arg V)) out i pos kw :
  loop_civecs sub none n args kwargs = Ok out -> nth_error out i = Some (pos, kw) ->
  my_args sub none args i = Ok pos /\ my_kwargs sub none args kwargs i = Ok kw.
Proof.
  unfold loop_civecs. intros H Hi. apply mapM_Forall2, Forall2_nth_error in H as [L G].
  assert (Hlt : (i < n)%nat) by (apply nth_error_Some_lt in Hi; rewrite seq_length in L; lia).
  specialize (G i i (pos, kw)). rewrite (nth_error_nth' _ 0%nat), seq_nth in G by (rewrite ?seq_length; auto).
  specialize (G eq_refl Hi). destruct (my_args _ _ _ _); cbn in G; [|discriminate].
  destruct (my_kwargs _ _ _ _ _); cbn in G; [|discriminate]. inversion G; auto.
Qed.

(** Positional arguments are always distributed properly. *)
Theorem C33_positional_partial n (args : list (arg V)) (kwargs : list (K * arg V)) out i pos kw :
  loop_civecs sub none n args kwargs = Ok out -> nth_error out i = Some (pos, kw) ->
  Forall2 (proper_share i) args pos.
Proof.
  intros H Hi. destruct (loop_civecs_at _ _ _ _ _ _ _ H Hi) as [M _].
  apply mapM_Forall2 in M. eapply Forall2_impl; [|exact M]. intros a g. apply hand_proper. auto.
Qed.

(** Keyword arguments are, when they are of the same kind as the last positional argument. *)
Theorem C33_keyword_partial n (args : list (arg V)) last (kwargs : list (K * arg V)) out i pos kw :
  loop_civecs sub none n (args ++ [last]) kwargs = Ok out -> nth_error out i = Some (pos, kw) ->
  Forall (fun kv => is_per (snd kv) = is_per last) kwargs ->
  Forall2 (fun kv kg => fst kv = fst kg /\ proper_share i (snd kv) (snd kg)) kwargs kw.
Proof.
  intros H Hi F. destruct (loop_civecs_at _ _ _ _ _ _ _ H Hi) as [_ M]. unfold my_kwargs in M.
  rewrite rev_app_distr in M. cbn [rev app] in M. destruct kwargs as [|kv0 kwargs0]; [inversion M; constructor|].
  set (kwargs := kv0 :: kwargs0) in *. clearbody kwargs. apply mapM_Forall2 in M. clear H Hi.
  revert F. induction M as [|kv kg kws kw' E M IH]; intros F; constructor; inversion F; subst; auto.
  destruct (hand sub none last (snd kv) i) as [g|] eqn:HH; cbn in E; [|discriminate]. inversion E; subst.
  cbn. split; auto. eapply hand_proper; [|eauto]. auto.
Qed.
End C33.
Print Assumptions C33_positional_partial.
Print Assumptions C33_keyword_partial.

(** Otherwise not: every solver is given the whole list, ... *)
Theorem C33_refuted : exists (args : list (arg nat)) (kwargs : list (nat * arg nat)) out pos kw,
  loop_civecs (fun _ _ => Raise TypeError) 0%nat 2 args kwargs = Ok out /\ nth_error out 1%nat = Some (pos, kw) /\
  ~ Forall2 (fun kv kg => fst kv = fst kg /\ proper_share 0%nat 1%nat (snd kv) (snd kg)) kwargs kw.
Proof.
  exists [PerItem (Some [10; 11]); Plain 4]%nat, [(7, PerItem (Some [20; 21]))]%nat. eexists. eexists. eexists.
  split; [reflexivity|]. split; [reflexivity|]. intros F. inversion F as [|? ? ? ? [_ P] _]; subst. inversion P.
Qed.
Print Assumptions C33_refuted.

(** ... or an ordinary object is subscripted, or there is no last positional argument to look at. *)
Example C33_example :
  let sub := fun (_ _ : nat) => Raise TypeError in
  loop_civecs (K:=nat) sub 0%nat 2 [PerItem (Some [10; 11]); Plain 4]%nat []
  = Ok [([GVal 10; GVal 4], []); ([GVal 11; GVal 4], [])]%nat /\
  loop_civecs sub 0%nat 2 [PerItem (Some [10; 11])]%nat [(7, Plain 5)]%nat = Raise TypeError /\
  loop_civecs sub 0%nat 2 [] [(7, Plain 5)]%nat = Raise NameError.
Proof. repeat split. Qed.
