(** Proofs about state addresses and blocked addresses. *)
From Coq Require Import List ZArith Lia Bool Arith.
From Verif Require Import Base BaseFacts AddrModel AddrFacts AddrSpec.
Import ListNotations.
Local Open Scope nat_scope.

Lemma prodN_fold l : fold_right Nat.mul 1 l = prodN l.
Proof. induction l; cbn; auto. Qed.
Lemma sum_nat_fold l : fold_right Nat.add 0 l = sum_nat l.
Proof. induction l; cbn; auto. Qed.

Lemma colmajor_lt dims ds : in_range dims ds -> colmajor dims ds < prodN dims.
Proof. induction 1; cbn; [lia|nia]. Qed.

Lemma colmajor_digit dims ds f : in_range dims ds -> f < length dims ->
  (colmajor dims ds / prodN (firstn f dims)) mod nth f dims 0 = nth f ds 0.
Proof.
  intros H; revert f; induction H as [|d x dims ds Hx H IH]; intros f Hf; cbn [length] in Hf; [lia|].
  destruct f as [|f]; cbn [colmajor firstn prodN nth].
  - rewrite Nat.div_1_r. rewrite (Nat.mul_comm d), Nat.mod_add by lia. apply Nat.mod_small; auto.
  - rewrite <- Nat.div_div.
    + rewrite (Nat.mul_comm d), Nat.div_add by lia. rewrite (Nat.div_small x d) by auto.
      cbn [Nat.add]. apply IH; lia.
    + lia.
    + intros E. assert (Hp : 0 < prodN dims) by (pose proof (colmajor_lt dims ds H); lia).
      rewrite (prodN_split dims f) in Hp by lia. lia.
Qed.

Lemma colmajor_surj dims k : k < prodN dims -> exists ds, in_range dims ds /\ colmajor dims ds = k.
Proof.
  revert k; induction dims as [|d dims IH]; intros k Hk; cbn [prodN] in Hk.
  - exists []. split; [constructor|cbn; lia].
  - assert (Hd : d <> 0) by (intros ->; lia).
    destruct (IH (k / d)) as (ds & Hr & Hc); [apply Nat.div_lt_upper_bound; auto|].
    exists (k mod d :: ds). split.
    + constructor; auto. apply Nat.mod_upper_bound; auto.
    + cbn [colmajor]. rewrite Hc. pose proof (Nat.div_mod k d Hd). lia.
Qed.

Lemma in_range_length dims ds : in_range dims ds -> length ds = length dims.
Proof. intros H; symmetry; exact (Forall2_length _ _ _ H). Qed.

Section Addr.
Variables (lroots : list (list nat)) (nroots : nat).
Hypothesis Hne : lroots <> [].
Hypothesis Hrect : Forall (fun row => length row = nroots) lroots.

Lemma states_before_off r : r <= nroots ->
  states_before lroots r
  = sum_nat (firstn r (map (fun iroot => prodN (column lroots iroot)) (seq 0 nroots))).
Proof.
  intros H. unfold states_before. rewrite sum_nat_fold. f_equal.
  rewrite firstn_map. replace (firstn r (seq 0 nroots)) with (seq 0 r).
  - apply map_ext. intros; apply prodN_fold.
  - replace nroots with (r + (nroots - r)) by lia. rewrite seq_app, firstn_app, seq_length.
    rewrite Nat.sub_diag, firstn_O, app_nil_r. rewrite <- (seq_length r 0) at 2.
    rewrite firstn_all; auto.
Qed.

Lemma find_block (l : list nat) k : k < sum_nat l ->
  exists r, r < length l /\ sum_nat (firstn r l) <= k < sum_nat (firstn r l) + nth r l 0.
Proof.
  revert k; induction l as [|x l IH]; intros k H; cbn [sum_nat] in H; [lia|].
  destruct (le_lt_dec x k).
  - destruct (IH (k - x)) as (r & Hr & Hk); [lia|].
    exists (S r). cbn [length firstn sum_nat nth]. lia.
  - exists 0. cbn. lia.
Qed.

Lemma rootaddr_fragaddr_spec :
  exists ra fa, get_rootaddr_fragaddr lroots = Ok (ra, fa) /\
    length ra = states_before lroots nroots /\
    length fa = length lroots /\
    Forall (fun row => length row = length ra) fa /\
    (forall k, k < length ra -> exists r ds, state_at ra fa k r ds) /\
    (forall k r ds, state_at ra fa k r ds <->
       r < nroots /\ in_range (dims_of lroots r) ds /\
       k = states_before lroots r + colmajor (dims_of lroots r) ds).
Proof.
  unfold get_rootaddr_fragaddr. destruct lroots as [|row0 rest] eqn:El; [congruence|].
  rewrite <- El in *.
  assert (H0 : length row0 = nroots) by (rewrite El in Hrect; inversion Hrect; auto).
  rewrite H0. set (nprods := map (fun iroot => prodN (column lroots iroot)) (seq 0 nroots)).
  assert (Ln : length nprods = nroots) by (unfold nprods; rewrite map_length, seq_length; auto).
  assert (Hall : sum_nat (firstn nroots nprods) = sum_nat nprods)
    by (rewrite <- Ln; rewrite firstn_all; auto).
  destruct (fill_roots_spec lroots nroots (sum_nat nprods) nroots 0
             (repeat 0 (sum_nat nprods)) (repeat (repeat 0 (sum_nat nprods)) (length lroots)))
    as (ra & fa & E & Lr & Lf & Hrows & _ & Hnew); auto.
  - apply repeat_length.
  - apply repeat_length.
  - intros row Hin. apply repeat_spec in Hin as ->. apply repeat_length.
  - cbv beta zeta in *. fold nprods in E, Hnew. exists ra, fa. rewrite E. split; [auto|].
    assert (Hdims : forall r, r < nroots -> nth r nprods 0 = prodN (column lroots r))
      by (intros; apply nprods_nth; auto).
    (* digits at a position *)
    assert (Key : forall r ds, r < nroots -> in_range (dims_of lroots r) ds ->
      state_at ra fa (states_before lroots r + colmajor (dims_of lroots r) ds) r ds).
    { intros r ds Hr Hd. rewrite states_before_off by lia. fold nprods.
      assert (Hx := colmajor_lt _ _ Hd).
      destruct (Hnew r (colmajor (dims_of lroots r) ds) ltac:(lia) Hx) as [Ha Hf].
      split; [exact Ha|].
      apply Forall2_nth_error. split.
      - rewrite (in_range_length _ _ Hd). unfold dims_of. rewrite map_length; auto.
      - intros f row x H1 H2.
        assert (Hfl : f < length (dims_of lroots r))
          by (rewrite <- (in_range_length _ _ Hd); apply nth_error_Some; congruence).
        rewrite (Hf f row H1).
        rewrite frag_addrs_nth; auto. f_equal.
        change (column lroots r) with (dims_of lroots r).
        rewrite colmajor_digit by auto. symmetry.
        apply nth_error_nth with (d := 0) in H2. auto. }
    assert (Cov : forall k, k < sum_nat nprods -> exists r ds, r < nroots /\
      in_range (dims_of lroots r) ds /\ k = states_before lroots r + colmajor (dims_of lroots r) ds).
    { intros k Hk. destruct (find_block nprods k Hk) as (r & Hr & Hb). rewrite Ln in Hr.
      rewrite Hdims in Hb by auto.
      destruct (colmajor_surj (dims_of lroots r) (k - sum_nat (firstn r nprods))) as (ds & Hd & Hc).
      - change (dims_of lroots r) with (column lroots r). lia.
      - exists r, ds. split; [auto|split; [auto|]]. rewrite Hc. rewrite states_before_off by lia.
        fold nprods. lia. }
    split; [|split; [auto|split; [|split]]].
    + rewrite states_before_off by lia. fold nprods. lia.
    + apply Forall_forall. intros row Hin. rewrite (Hrows row Hin). auto.
    + intros k Hk. rewrite Lr in Hk. destruct (Cov k Hk) as (r & ds & Hr & Hd & ->). eauto.
    + intros k r ds. split.
      * intros HS.
        assert (Hk : k < sum_nat nprods)
          by (rewrite <- Lr; apply nth_error_Some; destruct HS as [Ha _]; congruence).
        destruct (Cov k Hk) as (r' & ds' & Hr & Hd & Ek).
        pose proof (Key r' ds' Hr Hd) as HS'. rewrite <- Ek in HS'.
        destruct HS as [A1 A2], HS' as [B1 B2].
        assert (r = r') as -> by congruence.
        assert (ds = ds') as ->.
        { clear - A2 B2. revert ds' B2. induction A2; intros ds' B2; inversion B2; subst; auto.
          f_equal; [congruence|]. apply IHA2; auto. }
        auto.
      * intros (Hr & Hd & ->). auto.
Qed.
End Addr.
