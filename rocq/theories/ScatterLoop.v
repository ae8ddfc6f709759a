(** The loops of ScatterModel leave in the two flat arrays the entries that the loops of StdmModel compute. *)
From Coq Require Import List ZArith Bool Arith Lia Sorting.Permutation.
From Verif Require Import Base BaseFacts Star SCModel SCBlocks AddrModel ExcModel UexcModel StdmModel CrunchModel ScatterModel ScatterC ScatterFacts.
Import ListNotations.
Local Open Scope nat_scope.

(** digits of an address *)
Lemma dig2 n s A B : A < n -> B < n -> let a := s * (n * n) + (A * n + B) in a / n ^ 2 = s /\ a / n mod n = A /\ a mod n = B.
Proof.
  intros HA HB. cbv zeta. assert (E : s * (n * n) + (A * n + B) = (s * n + A) * n + B) by ring. rewrite E.
  assert (D : ((s * n + A) * n + B) / n = s * n + A) by (rewrite Nat.div_add_l by lia; rewrite (Nat.div_small B n HB); lia).
  repeat split.
  - rewrite Nat.pow_2_r, <- Nat.div_div by lia. rewrite D, Nat.div_add_l by lia. rewrite (Nat.div_small A n HA). lia.
  - rewrite D. rewrite Nat.add_comm, Nat.mod_add by lia. now apply Nat.mod_small.
  - rewrite Nat.add_comm, Nat.mod_add by lia. now apply Nat.mod_small.
Qed.
Lemma dig4 n c A B C D : A < n -> B < n -> C < n -> D < n -> let a := c * (n * n * (n * n)) + ((A * n + B) * (n * n) + (C * n + D)) in
  a / n ^ 4 = c /\ a / n ^ 3 mod n = A /\ a / n ^ 2 mod n = B /\ a / n mod n = C /\ a mod n = D.
Proof.
  intros HA HB HC HD. cbv zeta. assert (E : c * (n * n * (n * n)) + ((A * n + B) * (n * n) + (C * n + D)) = (c * (n * n) + (A * n + B)) * (n * n) + (C * n + D)) by ring. rewrite E.
  destruct (dig2 n (c * (n * n) + (A * n + B)) C D HC HD) as (E1 & E2 & E3). destruct (dig2 n c A B HA HB) as (F1 & F2 & F3).
  repeat split; [| | |exact E2|exact E3].
  - replace (n ^ 4) with (n ^ 2 * n ^ 2) by (rewrite <- Nat.pow_add_r; reflexivity). rewrite <- Nat.div_div by (rewrite Nat.pow_2_r; nia). now rewrite E1.
  - replace (n ^ 3) with (n ^ 2 * n) by (rewrite <- Nat.pow_succ_r' || (cbn; ring); cbn; ring). rewrite <- Nat.div_div by (try rewrite Nat.pow_2_r; nia). now rewrite E1.
  - now rewrite E1.
Qed.

Section Loop.
  Context {K : star_ring}.
  Local Open Scope star_scope.
  Add Ring Kr : (sring K).
  Variables (sched : nat -> list nat) (nlas : list nat) (nthreads : nat).
  Hypothesis Hsched : forall n, Permutation (sched n) (seq 0 n).
  Let N := norb_tot nlas.
  Hypothesis HN : (0 < N)%nat.
  Hypothesis Hthr : (0 < nthreads)%nat.
  Hypothesis Hint : (4 * Z.of_nat N ^ 4 < 2 ^ 31)%Z.

  Section Inv.
    Variable inv : list nat.
    Let ns := length (orbs nlas inv).
    Lemma moved_hit (g : nat -> K) A B : (A < ns)%nat -> (B < ns)%nat -> moved (opairs nlas inv) g (nth A (orbs nlas inv) 0 * N + nth B (orbs nlas inv) 0)%nat = g (A * ns + B)%nat.
    Proof.
      intros HA HB. unfold moved, N. rewrite <- (opairs_nth nlas inv A B HA HB). fold ns. rewrite pick_hit; [now rewrite Nat.add_0_l|apply opairs_nodup|].
      rewrite opairs_length. fold ns. nia.
    Qed.
    Lemma moved_miss (g : nat -> K) p q : (p < N)%nat -> (q < N)%nat -> taken nlas inv p && taken nlas inv q = false -> moved (opairs nlas inv) g (p * N + q)%nat = s0.
    Proof.
      intros Hp Hq Tk. unfold moved. apply pick_miss. intros I. apply opairs_in in I as (p' & q' & Ip & Iq & E). apply orbs_in in Ip as [Hp' Tp]. apply orbs_in in Iq as [Hq' Tq].
      apply pair_inj in E as [-> ->]; [|exact Hq|exact Hq']. rewrite Tp, Tq in Tk. discriminate.
    Qed.
    Lemma taken_nth p : (p < N)%nat -> taken nlas inv p = true -> exists A, (A < ns)%nat /\ nth A (orbs nlas inv) 0%nat = p.
    Proof. intros Hp Tp. apply In_nth. apply orbs_in. now split. Qed.
    Lemma moved_is (g : nat -> K) (v : K) p q : (p < N)%nat -> (q < N)%nat ->
      (forall A B, (A < ns)%nat -> (B < ns)%nat -> locate (nlas_in nlas inv) A = locate nlas p -> locate (nlas_in nlas inv) B = locate nlas q -> taken nlas inv p = true -> taken nlas inv q = true -> g (A * ns + B)%nat = v) ->
      moved (opairs nlas inv) g (p * N + q)%nat = if taken nlas inv p && taken nlas inv q then v else s0.
    Proof.
      intros Hp Hq H. destruct (taken nlas inv p && taken nlas inv q) eqn:T; [|now apply moved_miss].
      apply andb_true_iff in T as [Tp Tq]. destruct (taken_nth p Hp Tp) as (A & HA & EA). destruct (taken_nth q Hq Tq) as (B & HB & EB).
      rewrite <- EA, <- EB, moved_hit by assumption. apply H; try assumption; [rewrite <- EA|rewrite <- EB]; symmetry; now apply orbs_nth.
    Qed.
    Variable e : env.
    Hypothesis He : env_of nlas inv e.
    Lemma ix1_eq s p q : ix1 nlas s p q = Z.of_nat (s * (N * N) + (p * N + q))%nat.
    Proof. unfold ix1. fold N. f_equal. ring. Qed.
    Lemma ix2_eq c p q r u : ix2 nlas c p q r u = Z.of_nat (c * (N * N * (N * N)) + ((p * N + q) * (N * N) + (r * N + u)))%nat.
    Proof. unfold ix2. fold N. f_equal. ring. Qed.
    Lemma put1_val (d : tix -> K) (w : K) (dst : mem (K := K)) : exists m,
      put_SD1 sched dst (buf1 (list_sum (e_nlas e)) (e_nlas e) d w) 1 (Z.of_nat N) (Z.of_nat (e_nsrc e)) (zs (e_dblk e)) (zs (e_sblk e)) (zs (e_lblk e)) (Z.of_nat (length (e_lblk e))) = Ok m /\
      forall s p q, (s < 2)%nat -> (p < N)%nat -> (q < N)%nat -> m (ix1 nlas s p q) = dst (ix1 nlas s p q) + (if taken nlas inv p && taken nlas inv q then d (X1 s (locate nlas p) (locate nlas q)) * w else s0).
    Proof.
      destruct He as (E1 & E2 & E3 & E4 & E5 & E6). rewrite E1, E2. fold ns. assert (En : list_sum (nlas_in nlas inv) = ns) by (symmetry; apply orbs_length). rewrite En.
      destruct (put_SD1_sum sched Hsched N ns (opairs nlas inv) (e_dblk e) (e_sblk e) (e_lblk e) (opairs_lt nlas inv) (opairs_length nlas inv) E4 E5 (orbs_le nlas inv) E6 Hint dst (buf1 ns (nlas_in nlas inv) d w)) as (m & E & V).
      exists m. split; [exact E|]. intros s p q Hs Hp Hq. rewrite !ix1_eq. rewrite V by (try assumption; nia). f_equal. apply moved_is; [assumption..|].
      intros A B HA HB LA LB _ _. unfold buf1. rewrite Nat2Z.id. destruct (dig2 ns s A B HA HB) as (D1 & D2 & D3). cbv zeta in D1, D2, D3. rewrite D1, D2, D3, LA, LB. reflexivity.
    Qed.
    Lemma put2_val (d : tix -> K) (w : K) (dst : mem (K := K)) : exists m,
      put_SD2 sched dst (buf2 (list_sum (e_nlas e)) (e_nlas e) d w) 1 (Z.of_nat N) (Z.of_nat (e_nsrc e)) (zs (e_pdest e)) (zs (e_dblk e)) (zs (e_sblk e)) (zs (e_lblk e)) (Z.of_nat (length (e_lblk e))) = Ok m /\
      forall c p q r u, (c < 4)%nat -> (p < N)%nat -> (q < N)%nat -> (r < N)%nat -> (u < N)%nat -> m (ix2 nlas c p q r u) = dst (ix2 nlas c p q r u) +
        (if taken nlas inv p && taken nlas inv q then if taken nlas inv r && taken nlas inv u then d (X2 c (locate nlas p) (locate nlas q) (locate nlas r) (locate nlas u)) * w else s0 else s0).
    Proof.
      destruct He as (E1 & E2 & E3 & E4 & E5 & E6). rewrite E1, E2, E3. fold ns. assert (En : list_sum (nlas_in nlas inv) = ns) by (symmetry; apply orbs_length). rewrite En.
      destruct (put_SD2_sum sched Hsched N ns (opairs nlas inv) (e_dblk e) (e_sblk e) (e_lblk e) (opairs_lt nlas inv) (opairs_length nlas inv) E4 E5 (orbs_le nlas inv) E6 Hint dst (buf2 ns (nlas_in nlas inv) d w)) as (m & E & V).
      exists m. split; [exact E|]. intros c p q r u Hc Hp Hq Hr Hu. rewrite !ix2_eq. rewrite V by (try assumption; nia). f_equal. apply moved_is; [assumption..|].
      intros A B HA HB LA LB _ _. apply moved_is; [assumption..|]. intros C D HC HD LC LD _ _.
      unfold buf2. rewrite Nat2Z.id. destruct (dig4 ns c A B C D HA HB HC HD) as (D1 & D2 & D3 & D4 & D5). cbv zeta in D1, D2, D3, D4, D5. rewrite D1, D2, D3, D4, D5, LA, LB, LC, LD. reflexivity.
    Qed.
  End Inv.

  (** ** The loops *)
  Definition agree (t : tdms (K := K)) (T : nat -> nat -> tix -> K) : Prop := forall b k,
    (forall s p q, (s < 2)%nat -> (p < N)%nat -> (q < N)%nat -> fst (t b k) (ix1 nlas s p q) = T b k (X1 s (locate nlas p) (locate nlas q))) /\
    (forall c p q r u, (c < 4)%nat -> (p < N)%nat -> (q < N)%nat -> (r < N)%nat -> (u < N)%nat -> snd (t b k) (ix2 nlas c p q r u) = T b k (X2 c (locate nlas p) (locate nlas q) (locate nlas r) (locate nlas u))).
  (** matrix elements are 0 unless all orbitals belong to the fragments; those of one operator pair exist for two of the tables *)
  Definition supported (lbl : nat) (inv : list nat) (d : tix -> K) : Prop :=
    (forall s p q, fragidx inv (fst p) && fragidx inv (fst q) = false -> d (X1 s p q) = s0) /\
    (forall c p q r u, fragidx inv (fst p) && fragidx inv (fst q) && (fragidx inv (fst r) && fragidx inv (fst u)) = false -> d (X2 c p q r u) = s0) /\
    (has_d1 lbl = false -> forall s p q, d (X1 s p q) = s0).
  Definition part1 (t : tdms (K := K)) (T : nat -> nat -> tix -> K) : Prop := forall b k s p q, (s < 2)%nat -> (p < N)%nat -> (q < N)%nat -> fst (t b k) (ix1 nlas s p q) = T b k (X1 s (locate nlas p) (locate nlas q)).
  Definition part2 (t : tdms (K := K)) (T : nat -> nat -> tix -> K) : Prop := forall b k c p q r u, (c < 4)%nat -> (p < N)%nat -> (q < N)%nat -> (r < N)%nat -> (u < N)%nat ->
    snd (t b k) (ix2 nlas c p q r u) = T b k (X2 c (locate nlas p) (locate nlas q) (locate nlas r) (locate nlas u)).
  Lemma foldR_cons {A S} (f : S -> A -> res S) a l s : foldR f (a :: l) s = do s' <- f s a ;; foldR f l s'.
  Proof.
    unfold foldR. cbn [fold_left bind]. destruct (f s a) as [s'|x]; [reflexivity|]. cbn [bind].
    induction l as [|y l IH]; [reflexivity|]. exact IH.
  Qed.
  Lemma put_SD1_ok inv e d lbl : env_of nlas inv e -> supported lbl inv d -> forall l t T, part1 t T ->
    exists t', put_SD1_ sched nlas e d l t = Ok t' /\ part1 t' (fold_left (put1 d) l T) /\ forall b k, snd (t' b k) = snd (t b k).
  Proof.
    intros He (S1 & _ & _). induction l as [|[[b k] w] l IH]; intros t T H; [exists t; split; [reflexivity|split; [exact H|reflexivity]]|].
    unfold put_SD1_. rewrite foldR_cons. destruct (put1_val inv e He d w (fst (t b k))) as (m & E & V). fold N. rewrite E. cbn [bind].
    destruct (IH (fun b' k' => if (b =? b')%nat && (k =? k')%nat then (m, snd (t b' k')) else t b' k') (put1 d T (b, k, w))) as (t' & E' & P' & Q').
    - intros b' k' s p q Hs Hp Hq. unfold put1. destruct (Nat.eqb_spec b b') as [<-|]; [|now apply H]. destruct (Nat.eqb_spec k k') as [<-|]; [|now apply H]. cbn [andb fst].
      rewrite V, H by assumption. f_equal. unfold taken. destruct (fragidx inv (fst (locate nlas p)) && fragidx inv (fst (locate nlas q))) eqn:F; [reflexivity|]. rewrite S1 by exact F. ring.
    - exists t'. split; [exact E'|]. split; [exact P'|]. intros b' k'. rewrite Q'. now destruct ((b =? b')%nat && (k =? k')%nat).
  Qed.
  Lemma put_SD2_ok inv e d lbl : env_of nlas inv e -> supported lbl inv d -> forall l t T, part2 t T ->
    exists t', put_SD2_ sched nlas e d l t = Ok t' /\ part2 t' (fold_left (put1 d) l T) /\ forall b k, fst (t' b k) = fst (t b k).
  Proof.
    intros He (_ & S2 & _). induction l as [|[[b k] w] l IH]; intros t T H; [exists t; split; [reflexivity|split; [exact H|reflexivity]]|].
    unfold put_SD2_. rewrite foldR_cons. destruct (put2_val inv e He d w (snd (t b k))) as (m & E & V). fold N. rewrite E. cbn [bind].
    destruct (IH (fun b' k' => if (b =? b')%nat && (k =? k')%nat then (fst (t b' k'), m) else t b' k') (put1 d T (b, k, w))) as (t' & E' & P' & Q').
    - intros b' k' c p q r u Hc Hp Hq Hr Hu. unfold put1. destruct (Nat.eqb_spec b b') as [<-|]; [|now apply H]. destruct (Nat.eqb_spec k k') as [<-|]; [|now apply H]. cbn [andb snd].
      rewrite V, H by assumption. f_equal. specialize (S2 c (locate nlas p) (locate nlas q) (locate nlas r) (locate nlas u)). unfold taken.
      destruct (fragidx inv (fst (locate nlas p)) && fragidx inv (fst (locate nlas q))); cbn [andb] in S2; [|rewrite S2 by reflexivity; ring].
      destruct (fragidx inv (fst (locate nlas r)) && fragidx inv (fst (locate nlas u))); [reflexivity|rewrite S2 by reflexivity; ring].
    - exists t'. split; [exact E'|]. split; [exact P'|]. intros b' k'. rewrite Q'. now destruct ((b =? b')%nat && (k =? k')%nat).
  Qed.
  Lemma put1_zero (d : tix -> K) x : d x = s0 -> forall l T b k, fold_left (put1 d) l T b k x = T b k x.
  Proof.
    intros Z. induction l as [|[[b' k'] w] l IH]; intros T b k; [reflexivity|]. cbn [fold_left]. rewrite IH. unfold put1. destruct (_ && _); [|reflexivity]. rewrite Z. ring.
  Qed.
  Lemma put_D_ok inv e d lbl : env_of nlas inv e -> supported lbl inv d -> forall l t T, agree t T ->
    exists t', put_D sched nlas e lbl d l t = Ok t' /\ agree t' (fold_left (put1 d) l T).
  Proof.
    intros He Hs l t T H. unfold put_D.
    assert (G1 : exists t1, (if has_d1 lbl then put_SD1_ sched nlas e d l t else Ok t) = Ok t1 /\ part1 t1 (fold_left (put1 d) l T) /\ forall b k, snd (t1 b k) = snd (t b k)).
    { destruct (has_d1 lbl) eqn:E.
      - apply (put_SD1_ok inv e d lbl He Hs). intros b k. apply H.
      - exists t. split; [reflexivity|]. split; [|reflexivity]. intros b k s p q Hs' Hp Hq. destruct Hs as (_ & _ & S3). rewrite put1_zero by (now apply S3). now apply H. }
    destruct G1 as (t1 & E1 & P1 & Q1). rewrite E1. cbn [bind].
    destruct (put_SD2_ok inv e d lbl He Hs l t1 T) as (t2 & E2 & P2 & Q2).
    { intros b k c p q r u Hc Hp Hq Hr Hu. rewrite Q1. now apply H. }
    exists t2. split; [exact E2|]. intros b k. split.
    - intros s p q Hs' Hp Hq. rewrite Q2. now apply P1.
    - intros c p q r u Hc Hp Hq Hr Hu. now apply P2.
  Qed.

  Variables (half : K) (big : K -> bool) (pyset : list nat -> list nat) (lroots : list (list nat)) (ovlp : nat -> nat -> nat -> list (list K))
    (spin_shuffle : nat -> K) (frag_shuffle : nat -> list nat -> K) (rootaddr : list nat) (fragaddr : list (list nat))
    (cD : nat -> list nat -> option nat -> nat * list nat -> nat * list nat -> tix -> K) (nonuniq_exc : list ((nat * nat * list nat) * list (nat * nat))).
  Definition row_ok (lbl : nat) (row : erow) : Prop := (length (e_frags row) <= 4)%nat /\ forall bra ket, supported lbl (e_frags row) (cD lbl (e_frags row) (e_spin row) bra ket).
  Lemma crunch_env_ok lbl row t T T' : row_ok lbl row -> agree t T ->
    loop_lroots half big pyset lroots ovlp spin_shuffle frag_shuffle rootaddr fragaddr cD nonuniq_exc lbl T row = Ok T' ->
    exists t', crunch_env sched nlas nthreads half big pyset lroots ovlp spin_shuffle frag_shuffle rootaddr fragaddr cD nonuniq_exc lbl t row = Ok t' /\ agree t' T'.
  Proof.
    intros [Hl Hs] H E. unfold loop_lroots in E. unfold crunch_env. cbv zeta. destruct (orbrange_ok nlas nthreads (e_frags row) HN Hthr Hl) as (e & Ee & He). rewrite Ee. cbn [bind].
    destruct (get_key (key_of row) nonuniq_exc) as [table|]; [|discriminate]. cbv zeta in E. injection E as <-.
    match goal with |- context [foldR _ ?l t] => generalize l end. intros l. revert t T H. induction l as [|p l IH]; intros t T H; [exists t; split; [reflexivity|exact H]|].
    rewrite foldR_cons. cbn [fold_left]. edestruct (put_D_ok (e_frags row) e) as (t1 & E1 & H1); [exact He|apply Hs|exact H|]. rewrite E1. cbn [bind]. now apply IH.
  Qed.
  Lemma flat_tables_ok : forall tabs lbl t T T', (forall k l row, nth_error tabs k = Some l -> In row l -> row_ok (lbl + k) row) -> agree t T ->
    loop_tables half big pyset lroots ovlp spin_shuffle frag_shuffle rootaddr fragaddr cD nonuniq_exc lbl tabs T = Ok T' ->
    exists t', flat_tables sched nlas nthreads half big pyset lroots ovlp spin_shuffle frag_shuffle rootaddr fragaddr cD nonuniq_exc lbl tabs t = Ok t' /\ agree t' T'.
  Proof.
    induction tabs as [|rows tabs IH]; intros lbl t T T' Hr H E; cbn [loop_tables flat_tables] in *; [injection E as <-; exists t; split; [reflexivity|exact H]|].
    assert (G : forall rs t T T', (forall row, In row rs -> row_ok lbl row) -> agree t T ->
      loop_rows half big pyset lroots ovlp spin_shuffle frag_shuffle rootaddr fragaddr cD nonuniq_exc lbl rs T = Ok T' ->
      exists t', foldR (crunch_env sched nlas nthreads half big pyset lroots ovlp spin_shuffle frag_shuffle rootaddr fragaddr cD nonuniq_exc lbl) rs t = Ok t' /\ agree t' T').
    { clear IH E H Hr. clear t T T' tabs rows. induction rs as [|row rs IH]; intros t T T' Hr H E; cbn [loop_rows] in E; [injection E as <-; exists t; split; [reflexivity|exact H]|].
      rewrite foldR_cons. destruct (loop_lroots half big pyset lroots ovlp spin_shuffle frag_shuffle rootaddr fragaddr cD nonuniq_exc lbl T row) as [T1|] eqn:E1; [|discriminate]. cbn [bind] in E.
      destruct (crunch_env_ok lbl row t T T1 (Hr row (or_introl eq_refl)) H E1) as (t1 & F1 & H1). rewrite F1. cbn [bind]. apply (IH t1 T1 T'); auto. intros r I. apply Hr. now right. }
    destruct (loop_rows half big pyset lroots ovlp spin_shuffle frag_shuffle rootaddr fragaddr cD nonuniq_exc lbl rows T) as [T1|] eqn:E1; [|discriminate]. cbn [bind] in E.
    destruct (G rows t T T1) as (t1 & F1 & H1); [intros row I; specialize (Hr 0%nat rows row eq_refl I); now rewrite Nat.add_0_r in Hr|exact H|exact E1|]. rewrite F1. cbn [bind].
    apply (IH (S lbl) t1 T1 T'); [|exact H1|exact E]. intros k l row Ek I. specialize (Hr (S k) l row Ek I). now rewrite Nat.add_succ_r in Hr.
  Qed.
  (** the flat arrays after the transposed part is added and the axes are rearranged *)
  Lemma make_stdm12s_ok tabs T : (forall k l row, nth_error tabs k = Some l -> In row l -> row_ok k row) ->
    crunch_all half big tix_tr pyset lroots ovlp spin_shuffle frag_shuffle rootaddr fragaddr cD nonuniq_exc tabs = Ok T ->
    exists o1 o2, make_stdm12s sched nlas nthreads half big pyset lroots ovlp spin_shuffle frag_shuffle rootaddr fragaddr cD nonuniq_exc tabs = Ok (o1, o2) /\
      (forall b s p q k, (s < 2)%nat -> (p < N)%nat -> (q < N)%nat -> o1 b s p q k = T b k (X1 s (locate nlas q) (locate nlas p))) /\
      (forall b s p q s' r u k, (s < 2)%nat -> (s' < 2)%nat -> (p < N)%nat -> (q < N)%nat -> (r < N)%nat -> (u < N)%nat ->
        o2 b s p q s' r u k = T b k (X2 (2 * s + s') (locate nlas p) (locate nlas q) (locate nlas r) (locate nlas u))).
  Proof.
    intros Hr E. unfold crunch_all in E. destruct (loop_tables half big pyset lroots ovlp spin_shuffle frag_shuffle rootaddr fragaddr cD nonuniq_exc 0 tabs (fun _ _ _ => s0)) as [T0|] eqn:E0; [|discriminate].
    cbn [bind] in E. injection E as <-. unfold make_stdm12s.
    destruct (flat_tables_ok tabs 0 (fun _ _ => (fun _ => s0, fun _ => s0)) (fun _ _ _ => s0) T0) as (t & Et & H); [exact Hr|intros b k; split; reflexivity|exact E0|].
    rewrite Et. cbn [bind]. eexists. eexists. split; [reflexivity|]. split.
    - intros b s p q k Hs Hp Hq. unfold add_transpose. cbn [tix_tr]. rewrite (proj1 (H b k)), (proj1 (H k b)) by assumption. reflexivity.
    - intros b s p q s' r u k Hs Hs' Hp Hq Hr' Hu. unfold add_transpose. cbn [tix_tr]. rewrite (proj2 (H b k)), (proj2 (H k b)) by (try assumption; lia). reflexivity.
  Qed.
End Loop.
