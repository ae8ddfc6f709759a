From Coq Require Import List ZArith Arith Bool Lia.
From Verif Require Import Base BaseFacts LasModel LasSpec.
Import ListNotations.
Local Open Scope Z_scope.

Lemma qn_eqb_eq a b : qn_eqb a b = true <-> a = b.
Proof.
  destruct a, b; unfold qn_eqb; cbn. rewrite !andb_true_iff, !Z.eqb_eq. split.
  - intros [[[-> ->] ->] ->]; auto.
  - intros E; inversion E; auto.
Qed.
Lemma row_eqb_eq a : forall b, row_eqb a b = true <-> a = b.
Proof.
  induction a as [|x a IH]; intros [|y b]; cbn; split; intros H; try discriminate; auto.
  - apply andb_true_iff in H as [H1 H2]. apply qn_eqb_eq in H1. apply IH in H2. congruence.
  - inversion H; subst. apply andb_true_iff. split; [apply qn_eqb_eq|apply IH]; auto.
Qed.

(** ** Numbers of electrons *)
Lemma halves n m : (n + m) / 2 - (n - m) / 2 = m /\
  (n + m) / 2 + (n - m) / 2 = n - (if Z.even (n + m) then 0 else 1).
Proof.
  assert (H1 := Z.div_mod (n+m) 2 ltac:(lia)). assert (H2 := Z.div_mod (n-m) 2 ltac:(lia)).
  assert (E : (n - m) mod 2 = (n + m) mod 2).
  { replace (n - m) with (n + m + (-m) * 2) by lia. apply Z.mod_add; lia. }
  rewrite Zmod_even in E, H1. rewrite Zmod_even, Z.even_sub in *. rewrite Z.even_add in *.
  destruct (Bool.eqb (Z.even n) (Z.even m)); lia.
Qed.

Lemma info_spec ne c m s w :
  info ne (mkSolver (Some c) (Some m) (Some s) (Some w))
  = mkQ (c + (if Z.even (fst ne + snd ne - c + m) then 0 else 1)) m s w.
Proof.
  unfold info, get_nelec. cbn [s_charge s_spin s_smult s_wfnsym fst snd].
  destruct (halves (fst ne + snd ne - c) m) as [E1 E2]. f_equal; [|auto]. rewrite E2. lia.
Qed.

(** ** Tables *)
Lemma nth_error_map_seq {A} (g : nat -> A) n k : (k < n)%nat -> nth_error (map g (seq 0 n)) k = Some (g k).
Proof.
  intros H. rewrite (map_nth_error g k (seq 0 n) (d := k)); auto.
  rewrite (nth_error_nth' _ 0%nat) by (rewrite seq_length; auto). rewrite seq_nth; auto.
Qed.
Lemma shape_ok_spec n m (t : table) : shape_ok n m t = true <-> well_shaped n m t.
Proof.
  unfold shape_ok, well_shaped. rewrite andb_true_iff, Nat.eqb_eq, forallb_forall, Forall_forall.
  split; intros [H1 H2]; split; auto; intros x Hx; specialize (H2 x Hx); apply Nat.eqb_eq; auto.
Qed.
Lemma table_map (g : Z -> Z) t n m r f : well_shaped n m t -> (r < n)%nat -> (f < m)%nat ->
  table_entry (map (map g) t) r f = g (table_entry t r f).
Proof.
  intros [L F] Hr Hf. unfold table_entry.
  rewrite (nth_indep (map (map g) t) [] (map g [])) by (rewrite map_length; lia).
  rewrite map_nth. assert (Lr : length (nth r t []) = m).
  { rewrite Forall_forall in F. apply F, nth_In. lia. }
  rewrite (nth_indep _ 0 (g 0)) by (rewrite map_length; lia). apply map_nth.
Qed.
Lemma well_shaped_repeat {A} (row : list A) n : well_shaped n (length row) (repeat row n).
Proof. split; [apply repeat_length|]. apply Forall_forall. intros x H. apply repeat_spec in H. subst; auto. Qed.
Lemma well_shaped_map {A B} (g : A -> B) n m t : well_shaped n m t -> well_shaped n m (map (map g) t).
Proof.
  intros [L F]. split; [rewrite map_length; auto|]. apply Forall_map. eapply Forall_impl; [|exact F].
  intros a Ha; cbn; rewrite map_length; auto.
Qed.
Lemma nth_repeat_in {A} (a d : A) n k : (k < n)%nat -> nth k (repeat a n) d = a.
Proof. revert k. induction n; intros [|k] H; cbn; auto; try lia. apply IHn. lia. Qed.

Section S.
Context {C : Type} (l : las C).

(** everything state_average_ does, in one lemma *)
Lemma state_average_inv nw charges spins smults wfnsyms nd (l' : las C) :
  state_average_ l nw charges spins smults wfnsyms nd = Ok l' ->
  given_shape nw (nfrags l) charges /\ given_shape nw (nfrags l) spins /\
  given_shape nw (nfrags l) smults /\ given_shape nw (nfrags l) wfnsyms /\
  las_nelec l' = las_nelec l /\ las_nroots l' = nw /\
  exists new : list (list qn),
    length new = nw /\
    (forall r, (r < nw)%nat -> exists row, nth_error new r = Some row /\ length row = nfrags l /\
       forall f ne, nth_error (las_nelec l) f = Some ne ->
         nth_error row f = Some (requested ne charges spins smults wfnsyms r f)) /\
    (nd = true -> no_dupes new = true) /\
    (forall r f ne, (r < nw)%nat -> nth_error (las_nelec l) f = Some ne ->
       exists q, q = requested ne charges spins smults wfnsyms r f /\
       info_at l' r f = mkQ (q_charge q + (if Z.even (fst ne + snd ne - q_charge q + q_spin q) then 0 else 1))
                            (q_spin q) (q_smult q) (q_wfnsym q)) /\
    match las_ci l with
    | None => las_ci l' = None
    | Some ci => exists ci', las_ci l' = Some ci' /\
        transfer new ci 0 (get_space_info l) (repeat (repeat None nw) (nfrags l)) = Ok ci'
    end.
Proof.
  unfold state_average_. set (nf := nfrags l).
  set (ch := match charges with Some t => t | None => _ end).
  set (wf := match wfnsyms with Some t => t | None => _ end).
  set (sp := match spins with Some t => t | None => _ end).
  set (sm := match smults with Some t => t | None => _ end).
  destruct (forallb (shape_ok nw nf) [ch; sp; sm; wf]) eqn:SH; cbn [negb]; [|discriminate].
  cbn [forallb] in SH. rewrite !andb_true_iff, !shape_ok_spec in SH. destruct SH as (Sc & Ss & Sm & Sw & _).
  set (new := map _ (seq 0 nw)). set (boxes := map _ (seq 0 nf)).
  destruct (nd && negb (no_dupes new)) eqn:D; [discriminate|].
  assert (RQ : forall r f ne, (r < nw)%nat -> nth_error (las_nelec l) f = Some ne ->
    mkQ (at_ ch r f) (at_ sp r f) (at_ sm r f) (at_ wf r f) = requested ne charges spins smults wfnsyms r f).
  { intros r f ne Hr Hf. assert (Hf' : (f < nf)%nat) by (eapply nth_error_Some_lt; eauto).
    assert (Esp : at_ sp r f = req_spin ne spins r f).
    { unfold sp, req_spin, at_. destruct spins; auto. rewrite nth_repeat_in by auto.
      apply nth_error_nth. rewrite (map_nth_error (fun n : Z * Z => fst n - snd n) _ _ Hf); auto. }
    unfold requested. f_equal; auto.
    - unfold ch, at_. destruct charges; auto. rewrite nth_repeat_in by auto. apply nth_repeat_in; auto.
    - rewrite <- Esp. unfold sm. destruct smults; auto. apply (table_map (fun m => Z.abs m + 1) sp nw nf); auto.
    - unfold wf, at_. destruct wfnsyms; auto. rewrite nth_repeat_in by auto. apply nth_repeat_in; auto. }
  assert (GS : given_shape nw nf charges /\ given_shape nw nf spins /\ given_shape nw nf smults /\ given_shape nw nf wfnsyms).
  { unfold ch, sp, sm, wf in *. repeat split; [destruct charges|destruct spins|destruct smults|destruct wfnsyms]; cbn; auto. }
  assert (NEW : length new = nw /\ (forall r, (r < nw)%nat -> exists row, nth_error new r = Some row /\ length row = nf /\
       forall f ne, nth_error (las_nelec l) f = Some ne -> nth_error row f = Some (requested ne charges spins smults wfnsyms r f))).
  { split; [unfold new; rewrite map_length, seq_length; auto|]. intros r Hr. eexists; split; [apply nth_error_map_seq; auto|].
    split; [rewrite map_length, seq_length; auto|]. intros f ne Hf. rewrite nth_error_map_seq.
    - f_equal; auto.
    - eapply nth_error_Some_lt; eauto. }
  assert (ND : nd = true -> no_dupes new = true).
  { intros ->. cbn in D. destruct (no_dupes new); auto. }
  assert (BX : forall r f ne ci, (r < nw)%nat -> nth_error (las_nelec l) f = Some ne ->
     exists q, q = requested ne charges spins smults wfnsyms r f /\
       info_at (mkLas (C:=C) (las_nelec l) nw boxes ci) r f
       = mkQ (q_charge q + (if Z.even (fst ne + snd ne - q_charge q + q_spin q) then 0 else 1)) (q_spin q) (q_smult q) (q_wfnsym q)).
  { intros r f ne ci Hr Hf. eexists; split; [reflexivity|]. unfold info_at. cbn [las_boxes las_nelec].
    unfold boxes. rewrite nth_error_map_seq by (eapply nth_error_Some_lt; eauto). rewrite Hf.
    rewrite nth_error_map_seq by auto. rewrite info_spec, <- (RQ r f ne Hr Hf). reflexivity. }
  destruct GS as (G1 & G2 & G3 & G4), NEW as (N1 & N2).
  destruct (las_ci l) as [ci|] eqn:EC; intros H.
  - destruct (transfer _ _ _ _ _) as [ci'|] eqn:T; cbn [bind] in H; [|discriminate]. inversion H; subst l'.
    repeat split; auto. exists new. split; [auto|]. split; [auto|]. split; [auto|]. split; [intros; apply BX; auto|].
    exists ci'. cbn [las_ci]. split; auto.
  - inversion H; subst l'. repeat split; auto. exists new.
    split; [auto|]. split; [auto|]. split; [auto|]. split; [intros; apply BX; auto|]. reflexivity.
Qed.

Lemma reported_at r f : (r < las_nroots l)%nat -> (f < nfrags l)%nat -> reported l r f = Some (info_at l r f).
Proof. intros Hr Hf. unfold reported, get_space_info. rewrite !nth_error_map_seq; auto. Qed.
Lemma old_row r : (r < las_nroots l)%nat -> exists row, nth_error (get_space_info l) r = Some row /\
  length row = nfrags l /\ forall f, nth_error row f = reported l r f.
Proof.
  intros Hr. unfold get_space_info, reported. unfold get_space_info. rewrite nth_error_map_seq by auto.
  eexists; split; [reflexivity|]. rewrite map_length, seq_length. auto.
Qed.
End S.

(** ** CI transfer *)
Section T.
Context {C : Type}.
Implicit Types ci : list (list (option C)).

Lemma put_column_shape j ci : forall col n m, well_shaped n m ci -> well_shaped n m (put_column j ci col).
Proof.
  induction ci as [|fr ci IH]; intros col n m [L F]; cbn; [split; auto|].
  destruct col as [|x col]; [split; auto|]. inversion F; subst. cbn in *.
  destruct (IH col (length ci) (length fr)) as [L' F']; [split; auto|].
  split; cbn; [lia|]. constructor; auto. apply upd_length.
Qed.
Lemma ci_at_put j ci : forall col f r m, Forall (fun fr => length fr = m) ci -> (j < m)%nat ->
  length col = length ci -> (f < length ci)%nat ->
  ci_at (put_column j ci col) f r = if (r =? j)%nat then nth f col None else ci_at ci f r.
Proof.
  induction ci as [|fr ci IH]; intros [|x col] f r m F Hj L Hf; cbn in *; try lia.
  inversion F; subst. destruct f as [|f].
  - unfold ci_at; cbn. destruct (Nat.eqb_spec r j).
    + subst r. rewrite nth_error_upd_eq. destruct (nth_error fr j) eqn:E; auto. apply nth_error_None in E. lia.
    + rewrite nth_error_upd_neq; auto.
  - unfold ci_at in *; cbn. apply (IH col f r (length fr)); auto; lia.
Qed.
Lemma column_spec ci i col : column ci i = Ok col -> length col = length ci /\
  forall f, (f < length ci)%nat -> nth f col None = ci_at ci f i.
Proof.
  revert col. induction ci as [|fr ci IH]; intros col H; cbn in H.
  - inversion H; subst. split; auto. cbn; lia.
  - destruct (nth_error fr i) as [x|] eqn:E; cbn in H; [|discriminate].
    unfold column in IH. destruct (mapM _ ci) as [ys|] eqn:M; cbn in H; [|discriminate]. inversion H; subst.
    destruct (IH ys eq_refl) as [L G]. split; [cbn; auto|]. intros [|f] Hf; cbn in Hf.
    + unfold ci_at; cbn. rewrite E; auto.
    + unfold ci_at in *; cbn. apply G. lia.
Qed.
Lemma column_total ci i n m : well_shaped n m ci -> (i < m)%nat -> exists col, column ci i = Ok col.
Proof.
  intros [_ F] Hi. induction F as [|fr ci Hfr F IH]; cbn; eauto.
  destruct (nth_error fr i) eqn:E; [|apply nth_error_None in E; lia].
  destruct IH as [c Hc]. unfold column in Hc. cbn. rewrite Hc. cbn; eauto.
Qed.

Lemma matches_in new row j : In j (matches new row) <-> nth_error new j = Some row.
Proof.
  unfold matches. rewrite filter_In, in_seq. split.
  - intros [_ H]. destruct (nth_error new j) as [x|]; [|discriminate]. apply row_eqb_eq in H; subst; auto.
  - intros H. split; [split; [lia|]; cbn; eapply nth_error_Some_lt; eauto|]. rewrite H. apply row_eqb_eq; auto.
Qed.
Lemma matches_NoDup new row : NoDup (matches new row).
Proof. apply NoDup_filter, seq_NoDup. Qed.
Lemma no_dupes_inj new i j row : no_dupes new = true -> nth_error new i = Some row -> nth_error new j = Some row -> i = j.
Proof.
  revert i j. induction new as [|x new IH]; intros i j D Hi Hj; [destruct i; discriminate|].
  cbn in D. apply andb_true_iff in D as [D1 D2].
  assert (X : forall k, nth_error new k = Some row -> x = row -> False).
  { intros k Hk ->. apply negb_true_iff in D1. assert (existsb (row_eqb row) new = true); [|congruence].
    apply existsb_exists. exists row. split; [eapply nth_error_In; eauto|apply row_eqb_eq; auto]. }
  destruct i as [|i], j as [|j]; cbn in *; auto; try (inversion Hi; inversion Hj; subst; exfalso; eauto; fail).
Qed.

(** the state of the table after the loop *)
Lemma transfer_spec new ci nf m : forall old i ci0 ci', well_shaped nf m ci0 -> m = length new -> length ci = nf ->
  transfer new ci i old ci0 = Ok ci' ->
  well_shaped nf m ci' /\
  forall j row, nth_error new j = Some row -> 
    ((forall k, nth_error old k <> Some row) /\ (forall f, (f < nf)%nat -> ci_at ci' f j = ci_at ci0 f j)) \/
    (exists k, nth_error old k = Some row /\ (forall k', (k < k')%nat -> nth_error old k' <> Some row) /\
       forall f, (f < nf)%nat -> ci_at ci' f j = ci_at ci f (i + k)).
Proof.
  induction old as [|r0 old IH]; intros i ci0 ci' W Em L H; cbn in H.
  - inversion H; subst. split; auto. intros j row Hj. left. split; auto. intros [|k]; discriminate.
  - assert (STEP : forall ci1, transfer new ci (S i) old ci1 = Ok ci' -> well_shaped nf m ci1 ->
      (forall j row, nth_error new j = Some row -> row <> r0 -> forall f, (f < nf)%nat -> ci_at ci1 f j = ci_at ci0 f j) ->
      (forall j, nth_error new j = Some r0 -> forall f, (f < nf)%nat -> ci_at ci1 f j = ci_at ci f i) ->
      well_shaped nf m ci' /\
      forall j row, nth_error new j = Some row -> 
       ((forall k, nth_error (r0 :: old) k <> Some row) /\ (forall f, (f < nf)%nat -> ci_at ci' f j = ci_at ci0 f j)) \/
       (exists k, nth_error (r0 :: old) k = Some row /\ (forall k', (k < k')%nat -> nth_error (r0 :: old) k' <> Some row) /\
         forall f, (f < nf)%nat -> ci_at ci' f j = ci_at ci f (i + k))).
    { intros ci1 T W1 O1 O2. destruct (IH _ _ _ W1 Em L T) as [W' G]. split; auto. intros j row Hj.
      destruct (G j row Hj) as [[N E]|(k & K1 & K2 & K3)].
      - destruct (row_eqb row r0) eqn:Q.
        + apply row_eqb_eq in Q; subst r0. right. exists 0%nat. split; auto. split.
          * intros [|k'] Hk'; [lia|]. cbn. apply N.
          * intros f Hf. rewrite E, Nat.add_0_r by auto. apply O2; auto.
        + left. split.
          * intros [|k]; cbn; [intros X; inversion X; subst; assert (row_eqb row row = true) by (apply row_eqb_eq; auto); congruence|apply N].
          * intros f Hf. rewrite E by auto. apply (O1 j row); auto. intros ->.
            assert (row_eqb r0 r0 = true) by (apply row_eqb_eq; auto). congruence.
      - right. exists (S k). split; auto. split.
        + intros [|k'] Hk'; [lia|]. cbn. apply K2. lia.
        + intros f Hf. rewrite K3 by auto. f_equal. lia. }
    destruct (matches new r0) as [|j0 [|]] eqn:M; [| |discriminate].
    + apply (STEP ci0); auto. intros j Hj. exfalso. apply matches_in in Hj. rewrite M in Hj. destruct Hj.
    + destruct (column ci i) as [col|] eqn:CC; cbn [bind] in H; [|discriminate].
      destruct (column_spec _ _ _ CC) as [Lc Gc].
      assert (M0 : nth_error new j0 = Some r0) by (apply matches_in; rewrite M; cbn; auto).
      assert (Hj0 : (j0 < m)%nat) by (subst m; eapply nth_error_Some_lt; eauto). pose proof W as [W1 W2].
      apply (STEP (put_column j0 ci0 col)); auto.
      * apply put_column_shape; auto.
      * intros j row Hj Hne f Hf. rewrite (ci_at_put j0 ci0 col f j m) by (auto; lia).
        destruct (Nat.eqb_spec j j0); auto. subst j. congruence.
      * intros j Hj f Hf. apply matches_in in Hj. rewrite M in Hj. destruct Hj as [<-|[]].
        rewrite (ci_at_put j0 ci0 col f j0 m) by (auto; lia). rewrite Nat.eqb_refl. apply Gc. lia.
Qed.

Lemma transfer_total new ci nf no : no_dupes new = true -> well_shaped nf no ci ->
  forall old i ci0, (i + length old <= no)%nat -> exists ci', transfer new ci i old ci0 = Ok ci'.
Proof.
  intros D W. induction old as [|r0 old IH]; intros i ci0 Hl; cbn in *; eauto.
  destruct (matches new r0) as [|j [|j' rest]] eqn:M.
  - apply IH. lia.
  - destruct (column_total ci i nf no W ltac:(lia)) as [col ->]. cbn. apply IH. lia.
  - exfalso. pose proof (matches_NoDup new r0) as ND. rewrite M in ND. inversion ND as [|? ? NI _]; subst.
    apply NI. left. symmetry. apply (no_dupes_inj new j j' r0 D); apply matches_in; rewrite M; cbn; auto.
Qed.
End T.

(** ** Orbital slices *)
Lemma skip_fold {M} (sizes : list nat) : forall mo : list M,
  fold_left (fun mo offs => skipn offs mo) sizes mo = skipn (list_sum sizes) mo.
Proof.
  induction sizes as [|s sizes IH]; intros mo; cbn; auto. rewrite IH.
  clear. revert mo. induction s; intros mo; cbn; auto. destruct mo; cbn; auto. apply skipn_nil.
Qed.
Lemma skipn_skipn {A} a : forall b (l : list A), skipn a (skipn b l) = skipn (b + a) l.
Proof.
  intros b. induction b; intros l; cbn; auto. destruct l; cbn; auto. apply skipn_nil.
Qed.
Lemma slice_spec {M} (mo : list M) ncore sizes i n : nth_error sizes i = Some n ->
  get_mo_slice mo ncore sizes (Z.of_nat i) = Ok (firstn n (skipn (ncore + list_sum (firstn i sizes)) mo)).
Proof.
  intros H. pose proof (nth_error_Some_lt _ _ _ H) as L. unfold get_mo_slice, py_index, py_upto.
  destruct (Z.ltb_spec (Z.of_nat i) 0); [lia|].
  destruct (Z.leb_spec (Z.of_nat (length sizes)) (Z.of_nat i)); [lia|].
  destruct (Z.ltb_spec (Z.of_nat i) 0); [lia|]. cbn [orb].
  rewrite Nat2Z.id, H. cbn [bind]. rewrite skip_fold, skipn_skipn. auto.
Qed.
Lemma slice_neg {M} (mo : list M) ncore sizes i : - Z.of_nat (length sizes) <= i < 0 ->
  get_mo_slice mo ncore sizes i = get_mo_slice mo ncore sizes (i + Z.of_nat (length sizes)).
Proof.
  intros H. unfold get_mo_slice, py_index, py_upto.
  assert (E1 : (i <? 0) = true) by (apply Z.ltb_lt; lia).
  assert (E2 : (i + Z.of_nat (length sizes) <? 0) = false) by (apply Z.ltb_ge; lia).
  rewrite E1, !E2. reflexivity.
Qed.
Lemma slice_out {M} (mo : list M) ncore sizes i : i < - Z.of_nat (length sizes) \/ Z.of_nat (length sizes) <= i ->
  get_mo_slice mo ncore sizes i = Raise IndexError.
Proof.
  intros H. unfold get_mo_slice, py_index.
  destruct (Z.ltb_spec i 0).
  - destruct (Z.ltb_spec (i + Z.of_nat (length sizes)) 0); [auto|lia].
  - destruct (Z.ltb_spec i 0); [lia|]. destruct (Z.leb_spec (Z.of_nat (length sizes)) i); [auto|lia].
Qed.
Lemma firstn_add {A} a b (l : list A) : firstn (a + b) l = firstn a l ++ firstn b (skipn a l).
Proof. revert l. induction a; intros l; cbn; auto. destruct l; cbn; [rewrite firstn_nil|rewrite IHa]; auto. Qed.
Lemma blocks_cover {M} (mo : list M) sizes : forall start,
  flat_map (fun i => firstn (nth i sizes 0%nat) (skipn (start + list_sum (firstn i sizes)) mo)) (seq 0 (length sizes))
  = firstn (list_sum sizes) (skipn start mo).
Proof.
  induction sizes as [|s sizes IH]; intros start; auto.
  cbn [length seq flat_map nth firstn list_sum]. rewrite <- seq_shift, flat_map_concat_map, map_map, <- flat_map_concat_map.
  erewrite flat_map_ext; [|intros i; cbn [nth firstn]; change (list_sum (s :: firstn i sizes)) with (s + list_sum (firstn i sizes))%nat;
     rewrite Nat.add_assoc; reflexivity].
  rewrite IH. change (list_sum (s :: sizes)) with (s + list_sum sizes)%nat. rewrite firstn_add, skipn_skipn.
  cbn. rewrite Nat.add_0_r. auto.
Qed.
