(** The members of a multiplet reached from a CI array by mup and mdown. *)
From Coq Require Import List Bool Arith NArith ZArith Reals Lia Lra.
From Verif Require Import Base Star FockSpec FockFacts DetModel DetFacts HalfSpec HalfFacts LsisUpdModel SmultSpec SmultAlg SmultComm LadderSpec LadderModel LadderStr LadderFock LadderAng LadderMain PropLadder SmultModel SpmanModel.
Import ListNotations.
Local Open Scope R_scope.

Lemma member_le S M : member S M -> (M <> S)%Z -> member S (M + 2) /\ (M < S)%Z.
Proof. intros [H [j Hj]] N. split; [split; [lia|exists (j - 1)%Z; lia]|lia]. Qed.
Lemma member_ge S M : member S M -> (M <> - S)%Z -> member S (M - 2) /\ (- S < M)%Z.
Proof. intros [H [j Hj]] N. split; [split; [lia|exists (j + 1)%Z; lia]|lia]. Qed.
Lemma up_pos S M : member S M -> (M < S)%Z -> 0 < up S M.
Proof. intros [H _] L. exact (sqrt_lt_R0 _ (sq_up_pos S M ltac:(lia))). Qed.
Lemma down_pos S M : member S M -> (- S < M)%Z -> 0 < down S M.
Proof. intros [H _] L. exact (sqrt_lt_R0 _ (sq_dn_pos S M ltac:(lia))). Qed.
Lemma cancel_l (q x y : R) : 0 < q -> q * x = q * y -> x = y.
Proof. intros H E. apply Rmult_eq_reg_l with q; lra. Qed.

(** a multiplet is known from any of its members *)
Lemma multiplet_up n S psi phi M : multiplet n S psi -> multiplet n S phi -> member S M -> (M < S)%Z -> veq Rs (2 * n) (psi M) (phi M) -> veq Rs (2 * n) (psi (M + 2)%Z) (phi (M + 2)%Z).
Proof.
  intros Hp Hf HM L E e He. destruct (Hp M HM) as [_ U]. destruct (Hf M HM) as [_ U']. specialize (U e He). specialize (U' e He).
  pose proof (lad_veq n true _ _ E e He) as X. cbn [lad] in X. rewrite U, U' in X. exact (cancel_l _ _ _ (up_pos S M HM L) X).
Qed.
Lemma multiplet_dn n S psi phi M : multiplet n S psi -> multiplet n S phi -> member S M -> (- S < M)%Z -> veq Rs (2 * n) (psi M) (phi M) -> veq Rs (2 * n) (psi (M - 2)%Z) (phi (M - 2)%Z).
Proof.
  intros Hp Hf HM L E e He. destruct (Hp M HM) as [U _]. destruct (Hf M HM) as [U' _]. specialize (U e He). specialize (U' e He).
  pose proof (lad_veq n false _ _ E e He) as X. cbn [lad] in X. rewrite U, U' in X. exact (cancel_l _ _ _ (down_pos S M HM L) X).
Qed.
Lemma multiplet_det n S psi phi M0 : multiplet n S psi -> multiplet n S phi -> member S M0 -> veq Rs (2 * n) (psi M0) (phi M0) -> forall M, member S M -> veq Rs (2 * n) (psi M) (phi M).
Proof.
  intros Hp Hf H0 E M HM. assert (K : exists k : nat, M = (M0 + 2 * Z.of_nat k)%Z \/ M = (M0 - 2 * Z.of_nat k)%Z).
  { destruct HM as [_ [j Hj]]. destruct H0 as [_ [i Hi]]. exists (Z.to_nat (Z.abs (i - j))). lia. }
  destruct K as [k Hk]. revert M HM Hk. induction k as [|k IH]; intros M HM Hk.
  - replace M with M0 by lia. exact E.
  - destruct Hk as [Hk|Hk].
    + assert (HP : member S (M - 2)) by (destruct H0 as [A [i Hi]]; destruct HM as [B [j Hj]]; split; [lia|exists (j + 1)%Z; lia]).
      replace M with (M - 2 + 2)%Z by lia. apply (multiplet_up n S psi phi (M - 2) Hp Hf HP); [destruct HM; lia|]. apply IH; [exact HP|left; lia].
    + assert (HP : member S (M + 2)) by (destruct H0 as [A [i Hi]]; destruct HM as [B [j Hj]]; split; [lia|exists (j - 1)%Z; lia]).
      replace M with (M + 2 - 2)%Z by lia. apply (multiplet_dn n S psi phi (M + 2) Hp Hf HP); [destruct HM; lia|]. apply IH; [exact HP|right; lia].
Qed.
(** its members have the spin s *)
Lemma multiplet_pure n S psi ne c : multiplet n S psi -> member S (Mz ne) -> veq Rs (2 * n) (ci_state n ne c) (psi (Mz ne)) -> spin_pure n S (ci_state n ne c).
Proof.
  intros Hp HM E. apply (pure_up n ne S _ (ci_carries n ne c)). pose proof (lad_veq n true _ _ E) as X. cbn [lad] in X. destruct (Hp _ HM) as [_ U].
  assert (X1 : veq Rs (2 * n) (Splus Rs n (ci_state n ne c)) (fun e => up S (Mz ne) * psi (Mz ne + 2)%Z e)) by (intros e He; rewrite (X e He); exact (U e He)).
  pose proof (lad_veq n false _ _ X1) as X2. cbn [lad] in X2. intros e He. rewrite (X2 e He). pose proof (lad_mul n false (up S (Mz ne)) (psi (Mz ne + 2)%Z) e) as X3. cbn [lad] in X3. rewrite X3.
  destruct (Z.eq_dec (Mz ne) S) as [Q|Q].
  - unfold up, sq_up. rewrite Q. replace (hf S - hf S) with 0 by ring. rewrite !Rmult_0_l, sqrt_0. rring.
  - destruct (member_le S _ HM Q) as [H2 L]. destruct (Hp _ H2) as [D _]. rewrite (D e He). replace (Mz ne + 2 - 2)%Z with (Mz ne) by lia. rewrite (E e He).
    assert (Y : up S (Mz ne) * down S (Mz ne + 2) = sq_up S (Mz ne)).
    { unfold up, down, sq_up. replace ((hf S + hf (Mz ne + 2)) * (hf S - hf (Mz ne + 2) + 1)) with ((hf S - hf (Mz ne)) * (hf S + hf (Mz ne) + 1)) by (rewrite hf_add, hf_2; ring).
      apply sqrt_sqrt. left. apply (sq_up_pos S (Mz ne)). destruct HM; lia. }
    rewrite <- Y. rring.
Qed.

Lemma ci_zero n ne c : (n < fst ne)%nat -> vec0 n (ci_state n ne c).
Proof. intros H e _. unfold ci_state. cbv zeta. pose proof (count_le (bits e 0 n)) as L. rewrite bits_length in L. destruct (Nat.eqb_spec (count (bits e 0 n)) (fst ne)); [lia|reflexivity]. Qed.

Lemma lift n ne S psi c : multiplet n S psi -> member S (Mz ne) -> shaped n ne c -> veq Rs (2 * n) (ci_state n ne (a_el c)) (psi (Mz ne)) -> ~ vec0 n (ci_state n ne (a_el c)) -> (snd ne <= n)%nat ->
  let top := topne S ne in (snd top <= fst top <= n)%nat /\ S = Mz top /\ (fst top + snd top = fst ne + snd ne)%nat /\
  exists c', mup1 n ne (S + 1) c = Ok c' /\ shaped n top c' /\ veq Rs (2 * n) (ci_state n top (a_el c')) (psi S) /\
    forall M, member S M -> exists cM, mdown1 n (member_nelec top S M) (S + 1) c' = Ok cM /\ shaped n (member_nelec top S M) cM /\
      veq Rs (2 * n) (ci_state n (member_nelec top S M) (a_el cM)) (psi M).
Proof.
  intros Hp HM Hs E Hn Hb top. pose proof (multiplet_pure n S psi ne _ Hp HM E) as P.
  destruct (mup_main n S (n_steps (S + 1) ne) ne c eq_refl HM Hs P Hn Hb) as (Hk & c' & E' & Sc & Pc & I & c'' & E2 & S2 & V2). fold top in Sc, Pc, I.
  pose proof (steps_member S ne HM) as HK. assert (T : top = (fst ne + n_steps (S + 1) ne, snd ne - n_steps (S + 1) ne)%nat) by reflexivity.
  assert (MT : S = Mz top) by (rewrite T; unfold Mz in *; cbn [fst snd]; lia).
  assert (F : (fst top <= n)%nat).
  { destruct (le_lt_dec (fst top) n) as [H|H]; [exact H|]. exfalso. apply Hn. apply inner_0. rewrite <- I. unfold inner. apply (@bsum_0 Rs). intros d Hd. pose proof (ci_zero n top (a_el c') H) as Z.
    unfold vec0, veq in Z. apply in_dets in Hd. rewrite (Z d Hd). change (@eq R (0 * 0) 0). ring. }
  assert (HS : (0 <= S)%Z) by (destruct HM; lia). assert (Q : (snd top <= fst top <= n)%nat) by (unfold Mz in MT; lia).
  split; [exact Q|]. split; [exact MT|]. split; [rewrite T; cbn [fst snd]; lia|].
  assert (Sc' : shaped n (fst top, snd top) c') by exact Sc. assert (Pc' : spin_pure n S (ci_state n (fst top, snd top) (a_el c'))) by exact Pc.
  pose proof (fam_multiplet n (fst top) (snd top) S c' Q MT Sc' Pc') as FM. set (f := fam n (fst top) (snd top) S c') in *.
  pose proof (fam_ok n (fst top) (snd top) S c' Q MT Sc' Pc') as FO. fold f in FO. rewrite <- (surjective_pairing top) in FM, FO.
  assert (NM : member_nelec top S (Mz ne) = ne).
  { unfold member_nelec. rewrite T. cbn [fst snd]. replace (S - Mz ne)%Z with (Z.of_nat (n_steps (S + 1) ne) * 2)%Z by lia. rewrite Z.div_mul by lia. rewrite Nat2Z.id. destruct ne as [na nb]. cbn [fst snd] in *. f_equal; lia. }
  assert (F0 : veq Rs (2 * n) (ci_state n (member_nelec top S (Mz ne)) (a_el (f (Mz ne)))) (psi (Mz ne))).
  { destruct (FO _ HM) as (Em & _). rewrite NM in *. rewrite E2 in Em. injection Em as <-. intros e He. rewrite (V2 e He). exact (E e He). }
  pose proof (multiplet_det n S _ psi (Mz ne) FM Hp HM F0) as D. exists c'. split; [exact E'|]. split; [exact Sc|]. split.
  - assert (HSS : member S S) by (split; [lia|exists 0%Z; lia]). pose proof (D S HSS) as DS. cbv beta in DS. destruct (FO S HSS) as (Em & _). 
    assert (NS : member_nelec top S S = top) by (unfold member_nelec; rewrite Z.sub_diag; cbn [Z.div Z.div_eucl Z.to_nat]; rewrite Nat.sub_0_r, Nat.add_0_r; symmetry; apply surjective_pairing).
    rewrite NS in *. assert (N0 : n_steps (S + 1) top = 0%nat) by (unfold n_steps; fold (Mz top); rewrite <- MT; replace (S + 1 - 1 - S)%Z with 0%Z by lia; reflexivity).
    unfold mdown1 in Em. rewrite N0 in Em. cbn [seq rev foldR] in Em. injection Em as Em. rewrite <- Em in DS. exact DS.
  - intros M HM'. destruct (FO M HM') as (Em & Sm & _). exists (f M). split; [exact Em|]. split; [exact Sm|]. exact (D M HM').
Qed.
Lemma split_member ne S M : member S (Mz ne) -> member S M -> let top := topne S ne in (fst top + snd top = fst ne + snd ne)%nat -> S = Mz top -> (snd top <= fst top)%nat -> split_nelec ne M = member_nelec top S M.
Proof.
  intros _ HM top HT HS Hle. unfold split_nelec, member_nelec. rewrite <- HT. destruct top as [a b]. unfold Mz in HS. cbn [fst snd] in *. destruct HM as [H [j Hj]].
  replace (S - M)%Z with (j * 2)%Z by lia. rewrite Z.div_mul by lia. replace (Z.of_nat (a + b) + M)%Z with ((Z.of_nat a - j) * 2)%Z by lia. replace (Z.of_nat (a + b) - M)%Z with ((Z.of_nat b + j) * 2)%Z by lia.
  rewrite !Z.div_mul by lia. f_equal; lia.
Qed.
