(** The rows of the interaction tables between two rootspaces: what each contributes, and that together they write every entry once. *)
From Coq Require Import List NArith ZArith Arith Bool Lia Sorting.Permutation.
From Verif Require Import Base BaseFacts Star SCModel FockSpec LprodSpec LasFock LasElem SignsModel SignsFacts ExcSpec ExcModel UexcModel PropExc PropUexc CrunchModel CrunchSpec CrunchFacts CrunchRows CrunchAll.
Import ListNotations.
Local Open Scope nat_scope.

Section Shape.
  Variables (nf : nat) (nelec : nat -> list (Z * Z)) (scai : list (nat * nat)).
  Hypothesis Ad : admissible nf nelec scai.
  Hypothesis Nd : NoDup scai.
  Let T := make_exc_tables nf (hopping_index nelec) scai.
  Notation link r c a := (connects nf nelec (e_bra r) (e_ket r) (c, a)).
  Lemma select_spin H c fr sp l r : In r (select H c fr sp l) -> exists h, e_spin r = sp h.
  Proof. unfold select. intros I. apply in_map_iff in I as (p & <- & _). now eexists. Qed.
  Lemma null_shape r : In r (t_null T) -> e_frags r = [] /\ e_spin r = None /\ link r [] [].
  Proof.
    intros I. destruct (C54_rows _ _ _ Ad) as (R0 & _). destruct (R0 r I) as [E C]. split; [exact E|]. split; [|exact C]. now destruct (select_spin _ _ _ _ _ _ I).
  Qed.
  Lemma s1_shape r : In r (t_1s T) -> exists i j, e_frags r = [i; j] /\ e_spin r = None /\ i < nf /\ j < nf /\ i <> j /\ connects nf nelec (e_bra r) (e_ket r) (ops_1s i j).
  Proof.
    intros I. destruct (C54_rows _ _ _ Ad) as (_ & _ & R2 & _). destruct (R2 r I) as (i & j & E & Hi & Hj & Nij & C). exists i, j. repeat split; auto.
    cbn in I. unfold exc_1s in I. destruct (1 <? nf)%nat; [|destruct I]. now destruct (select_spin _ _ _ _ _ _ I).
  Qed.
  (** a row: which table, the operators that change the electron numbers *)
  Inductive shape : nat -> erow -> Prop :=
  | Sh1d b k i : i < nf -> connects nf nelec b k ([], []) -> shape 0 (mkRow b k [i] None)
  | Sh2d b k i j : i < nf -> j < nf -> i <> j -> connects nf nelec b k ([], []) -> shape 1 (mkRow b k [i; j] None)
  | Sh1c b k i j s : i < nf -> j < nf -> i <> j -> s < 2 -> connects nf nelec b k (ops_1c i j s) -> shape 2 (mkRow b k [i; j] (Some s))
  | Sh1c1d b k i j f s : i < nf -> j < nf -> f < nf -> i <> j -> f <> i -> f <> j -> s < 2 -> connects nf nelec b k (ops_1c i j s) -> shape 3 (mkRow b k [i; j; f] (Some s))
  | Sh1s b k i j : i < nf -> j < nf -> i <> j -> connects nf nelec b k (ops_1s i j) -> shape 4 (mkRow b k [i; j] None)
  | Sh1s1c b k i j l s : i < nf -> j < nf -> l < nf -> NoDup [i; j; l] -> s < 2 -> connects nf nelec b k (ops_1s1c i j l s) -> shape 5 (mkRow b k [i; j; l] (Some s))
  | Sh2c b k i j l m s : i < nf -> j < nf -> l < nf -> m < nf -> i <> j -> i <> m -> l <> j -> l <> m -> s < 3 -> connects nf nelec b k (ops_2c i j l m s) -> shape 6 (mkRow b k [i; j; l; m] (Some s)).
  Lemma row_shape lbl t row : nth_error (interaction_tables T) lbl = Some t -> In row t -> shape lbl row.
  Proof.
    intros Ht Hr. destruct (C54_rows _ _ _ Ad) as (R0 & R1 & R2 & R3 & R4). destruct (C54_spectators _ _ _ Ad Nd) as (_ & S1 & S2 & S3). fold T in R0, R1, R2, R3, R4, S1, S2, S3.
    destruct row as [b k fr s]. destruct lbl as [|[|[|[|[|[|[|m7]]]]]]]; cbn [interaction_tables nth_error] in Ht; try discriminate Ht; try (injection Ht as <-).
    - apply S1 in Hr as (f & -> & Hf & Hr). destruct (null_shape _ Hr) as (_ & E & C). cbn in E, C. subst s. now constructor.
    - apply S2 in Hr as (i & j & -> & Hf & Hr). destruct (null_shape _ Hr) as (_ & E & C). cbn in E, C. subst s. constructor; auto; lia.
    - destruct (R1 _ Hr) as (i & j & s' & E & Es & H). cbn in E, Es, H. subst fr s. constructor; tauto.
    - apply S3 in Hr as (i & j & f & -> & Hf & N1 & N2 & Hr). destruct (R1 _ Hr) as (i' & j' & s' & E & Es & H). cbn in E, Es, H. injection E as <- <-. subst s. constructor; tauto.
    - destruct (s1_shape _ Hr) as (i & j & E & Es & H). cbn in E, Es, H. subst fr s. constructor; tauto.
    - destruct (R3 _ Hr) as (i & j & l & s' & E & Es & H). cbn in E, Es, H. subst fr s. constructor; tauto.
    - destruct (R4 _ Hr) as (i & j & l & m & s' & E & Es & H). cbn in E, Es, H. subst fr s. constructor; tauto.
    - destruct m7; discriminate Ht.
  Qed.
  (** one row without spectators for every pair *)
  Let base := t_null T ++ t_1c T ++ t_1s T ++ t_1s1c T ++ t_2c T.
  Lemma base_nodup : NoDup (map pair_of base).
  Proof. apply (Permutation_NoDup (C54_each_once _ _ _ Ad)). exact Nd. Qed.
  Lemma nodup_inj {A B} (f : A -> B) l a b : NoDup (map f l) -> In a l -> In b l -> f a = f b -> a = b.
  Proof.
    induction l as [|c l IH]; [intros _ []|]. cbn. intros N. inversion N as [|? ? N1 N2]; subst. intros [->|Ia] [->|Ib] E; auto.
    - exfalso. apply N1. rewrite E. now apply in_map.
    - exfalso. apply N1. rewrite <- E. now apply in_map.
  Qed.
  Lemma base_inj r1 r2 : In r1 base -> In r2 base -> pair_of r1 = pair_of r2 -> r1 = r2.
  Proof. intros. apply (nodup_inj pair_of base); auto. apply base_nodup. Qed.
  Lemma base_in r : In r base <-> In r (t_null T) \/ In r (t_1c T) \/ In r (t_1s T) \/ In r (t_1s1c T) \/ In r (t_2c T).
  Proof. unfold base. now rewrite !in_app_iff. Qed.
  Lemma tabs_nodup t : In t (interaction_tables T) -> NoDup t.
  Proof.
    destruct (C54_spectators _ _ _ Ad Nd) as ((N1 & N2 & N3) & _). fold T in N1, N2, N3. pose proof base_nodup as Nb. apply NoDup_map_inv in Nb. unfold base in Nb.
    assert (Ap : forall (l l' : list erow), NoDup (l ++ l') -> NoDup l /\ NoDup l').
    { induction l as [|a l IH]; intros l' H; [split; [constructor|exact H]|]. cbn in H. inversion H as [|? ? H1 H2]; subst. destruct (IH _ H2). split; [constructor; auto; intros I; apply H1, in_or_app; now left|assumption]. }
    apply Ap in Nb as [B0 Nb]. apply Ap in Nb as [B1 Nb]. apply Ap in Nb as [B2 Nb]. apply Ap in Nb as [B3 B4].
    cbn. intros [<-|[<-|[<-|[<-|[<-|[<-|[<-|[]]]]]]]]; assumption.
  Qed.

  Section Count.
  Variables (b k : nat) (fs : list nat).
  Hypothesis Hfs : forall f, In f fs -> f < nf.
  Definition same (l l' : list nat) : bool := forallb (fun f => mem f l') l && forallb (fun f => mem f l) l'.
  Lemma same_iff l l' : same l l' = true <-> forall f, In f l <-> In f l'.
  Proof.
    unfold same. rewrite andb_true_iff, !forallb_forall. split.
    - intros [H1 H2] f. split; intros I; [apply H1 in I|apply H2 in I]; now apply mem_iff.
    - intros H. split; intros f I; apply mem_iff; now apply H.
  Qed.
  Definition hit (row : erow) : bool := (e_bra row =? b) && (e_ket row =? k) && same fs (e_frags row).
  Definition hits (t : list erow) : nat := length (filter hit t).
  Lemma hits_0 t : (forall row, In row t -> hit row = false) -> hits t = 0.
  Proof. unfold hits. induction t as [|r t IH]; intros H; [reflexivity|]. cbn. rewrite (H r) by now left. apply IH. intros; apply H; now right. Qed.
  Lemma hits_1 t r0 : NoDup t -> In r0 t -> hit r0 = true -> (forall row, In row t -> hit row = true -> row = r0) -> hits t = 1.
  Proof.
    unfold hits. induction t as [|r t IH]; intros N I H0 H; [destruct I|]. inversion N as [|? ? N1 N2]; subst. cbn. destruct (hit r) eqn:E.
    - rewrite (H r) by (auto; now left). cbn. f_equal. apply hits_0. intros row Ir. destruct (hit row) eqn:E'; [|reflexivity]. exfalso. apply N1. rewrite (H r), <- (H row) by (auto; (now left) || now right). exact Ir.
    - destruct I as [->|I]; [congruence|]. apply IH; auto. intros; apply H; auto; now right.
  Qed.
  Lemma hit_pair row : hit row = true -> pair_of row = (b, k) /\ forall f, In f fs <-> In f (e_frags row).
  Proof. unfold hit. rewrite !andb_true_iff, !Nat.eqb_eq, same_iff. intros [[E1 E2] H]. split; [unfold pair_of; now rewrite E1, E2|exact H]. Qed.
  Lemma hit_intro row : pair_of row = (b, k) -> (forall f, In f fs <-> In f (e_frags row)) -> hit row = true.
  Proof. intros E H. unfold pair_of in E. injection E as E1 E2. unfold hit. rewrite !andb_true_iff, !Nat.eqb_eq, same_iff. auto. Qed.
  (** no row of another kind *)
  Definition kind (r : erow) : nat * bool := (length (e_frags r), match e_spin r with None => false | _ => true end).
  Lemma kind_null r : In r (t_null T) -> kind r = (0, false).
  Proof. intros I. destruct (null_shape r I) as (E & Es & _). unfold kind. now rewrite E, Es. Qed.
  Lemma kind_1c r : In r (t_1c T) -> kind r = (2, true).
  Proof. intros I. destruct (C54_rows _ _ _ Ad) as (_ & R1 & _). destruct (R1 r I) as (i & j & s & E & Es & _). unfold kind. now rewrite E, Es. Qed.
  Lemma kind_1s r : In r (t_1s T) -> kind r = (2, false).
  Proof. intros I. destruct (s1_shape r I) as (i & j & E & Es & _). unfold kind. now rewrite E, Es. Qed.
  Lemma kind_1s1c r : In r (t_1s1c T) -> kind r = (3, true).
  Proof. intros I. destruct (C54_rows _ _ _ Ad) as (_ & _ & _ & R3 & _). destruct (R3 r I) as (i & j & l & s & E & Es & _). unfold kind. now rewrite E, Es. Qed.
  Lemma kind_2c r : In r (t_2c T) -> kind r = (4, true).
  Proof. intros I. destruct (C54_rows _ _ _ Ad) as (_ & _ & _ & _ & R4). destruct (R4 r I) as (i & j & l & m & s & E & Es & _). unfold kind. now rewrite E, Es. Qed.
  Variable r0 : erow.
  Hypothesis I0 : In r0 base.
  Hypothesis P0 : pair_of r0 = (b, k).
  Lemma other_0 t : (forall r, In r t -> In r base) -> (forall r, In r t -> kind r <> kind r0) -> hits t = 0.
  Proof. intros Hb Hk. apply hits_0. intros r Ir. destruct (hit r) eqn:E; [|reflexivity]. exfalso. apply hit_pair in E as [E _]. apply (Hk r Ir). f_equal. apply base_inj; auto. congruence. Qed.
  Lemma own_1 t : NoDup t -> (forall r, In r t -> In r base) -> In r0 t -> (forall f, In f fs <-> In f (e_frags r0)) -> hits t = 1.
  Proof. intros N Hb Ir Hf. apply (hits_1 t r0); auto; [now apply hit_intro|]. intros r Ir' E. apply hit_pair in E as [E _]. apply base_inj; auto. congruence. Qed.
  Lemma own_0 t : (forall r, In r t -> In r base) -> In r0 t -> ~ (forall f, In f fs <-> In f (e_frags r0)) -> hits t = 0.
  Proof. intros Hb Ir Hf. apply hits_0. intros r Ir'. destruct (hit r) eqn:E; [|reflexivity]. exfalso. apply hit_pair in E as [E F]. apply Hf. replace r0 with r; [exact F|]. apply base_inj; auto. congruence. Qed.
  Lemma in_b0 r : In r (t_null T) -> In r base. Proof. rewrite base_in; tauto. Qed.
  Lemma in_b1 r : In r (t_1c T) -> In r base. Proof. rewrite base_in; tauto. Qed.
  Lemma in_b2 r : In r (t_1s T) -> In r base. Proof. rewrite base_in; tauto. Qed.
  Lemma in_b3 r : In r (t_1s1c T) -> In r base. Proof. rewrite base_in; tauto. Qed.
  Lemma in_b4 r : In r (t_2c T) -> In r base. Proof. rewrite base_in; tauto. Qed.
  Definition total : nat := list_sum (map hits (interaction_tables T)).
  Ltac nb L K := rewrite (other_0 _ L) by (let r := fresh in let I := fresh in intros r I; rewrite (K r I); intros C; congruence).
  Lemma no_1d : kind r0 <> (0, false) -> hits (t_1d T) = 0.
  Proof.
    intros N. apply hits_0. intros [b1 k1 fr s] Ir. destruct (hit _) eqn:E; [|reflexivity]. exfalso. apply hit_pair in E as [E _]. destruct (C54_spectators _ _ _ Ad Nd) as (_ & S1 & _). apply S1 in Ir as (f & _ & _ & Ir).
    apply N. rewrite <- (kind_null _ Ir). f_equal. apply base_inj; auto; [now apply in_b0|]. rewrite P0. symmetry. exact E.
  Qed.
  Lemma no_2d : kind r0 <> (0, false) -> hits (t_2d T) = 0.
  Proof.
    intros N. apply hits_0. intros [b1 k1 fr s] Ir. destruct (hit _) eqn:E; [|reflexivity]. exfalso. apply hit_pair in E as [E _]. destruct (C54_spectators _ _ _ Ad Nd) as (_ & _ & S2 & _). apply S2 in Ir as (i & j & _ & _ & Ir).
    apply N. rewrite <- (kind_null _ Ir). f_equal. apply base_inj; auto; [now apply in_b0|]. rewrite P0. symmetry. exact E.
  Qed.
  Lemma no_1c1d : kind r0 <> (2, true) -> hits (t_1c1d T) = 0.
  Proof.
    intros N. apply hits_0. intros [b1 k1 fr s] Ir. destruct (hit _) eqn:E; [|reflexivity]. exfalso. apply hit_pair in E as [E _]. destruct (C54_spectators _ _ _ Ad Nd) as (_ & _ & _ & S3). apply S3 in Ir as (i & j & f & _ & _ & _ & _ & Ir).
    apply N. rewrite <- (kind_1c _ Ir). f_equal. apply base_inj; auto; [now apply in_b1|]. rewrite P0. symmetry. exact E.
  Qed.
  Lemma total_eq : total = hits (t_1d T) + (hits (t_2d T) + (hits (t_1c T) + (hits (t_1c1d T) + (hits (t_1s T) + (hits (t_1s1c T) + (hits (t_2c T) + 0)))))).
  Proof. reflexivity. Qed.
  Lemma total_null g h : In r0 (t_null T) -> (forall f, In f fs <-> f = g \/ f = h) -> total = 1.
  Proof.
    intros Ir Hs. rewrite total_eq. pose proof (kind_null _ Ir) as K0. assert (Hg : g < nf /\ h < nf) by (split; apply Hfs, Hs; auto). destruct Hg as [Hg Hh].
    rewrite (other_0 _ in_b1) by (intros r I; rewrite (kind_1c r I); congruence). rewrite (other_0 _ in_b2) by (intros r I; rewrite (kind_1s r I); congruence).
    rewrite (other_0 _ in_b3) by (intros r I; rewrite (kind_1s1c r I); congruence). rewrite (other_0 _ in_b4) by (intros r I; rewrite (kind_2c r I); congruence). rewrite no_1c1d by congruence.
    destruct (C54_spectators _ _ _ Ad Nd) as (_ & S1 & S2 & _). fold T in S1, S2. destruct (null_shape _ Ir) as (E0 & Es & _). destruct r0 as [b0 k0 fr0 s0']. cbn in E0, Es, P0. subst fr0 s0'. injection P0 as -> ->.
    assert (U : forall b1 k1 s1, In (mkRow b1 k1 [] s1) (t_null T) -> s1 = None) by (intros b1 k1 s1 I; now destruct (null_shape _ I) as (_ & E & _)).
    destruct (Nat.eq_dec g h) as [<-|N].
    - rewrite (hits_1 (t_1d T) (mkRow b k [g] None)).
      + rewrite hits_0; [reflexivity|]. intros [b1 k1 fr s] I. destruct (hit _) eqn:E; [|reflexivity]. exfalso. apply hit_pair in E as [_ E]. apply S2 in I as (i & j & -> & Hij & _). cbn in E.
        pose proof (proj2 (E i) (or_introl eq_refl)) as H1. pose proof (proj2 (E j) (or_intror (or_introl eq_refl))) as H2. apply Hs in H1, H2. lia.
      + apply tabs_nodup. cbn. tauto.
      + apply S1. exists g. auto.
      + apply hit_intro; [reflexivity|]. intros f. rewrite Hs. cbn. intuition congruence.
      + intros [b1 k1 fr s] I E. apply hit_pair in E as [Ep E]. cbn in Ep. injection Ep as -> ->. apply S1 in I as (f & -> & Hf & I). pose proof (U _ _ _ I) as ->. cbn in E. destruct (proj1 (Hs f)); [apply E; now left|congruence|congruence].
    - rewrite (hits_0 (t_1d T)).
      + rewrite (hits_1 (t_2d T) (mkRow b k [Nat.max g h; Nat.min g h] None)); [reflexivity|..].
        * apply tabs_nodup. cbn. tauto.
        * apply S2. exists (Nat.max g h), (Nat.min g h). split; [reflexivity|]. split; [lia|exact Ir].
        * apply hit_intro; [reflexivity|]. intros f. rewrite Hs. cbn [e_frags In]. lia.
        * intros [b1 k1 fr s] I E. apply hit_pair in E as [Ep E]. cbn in Ep. injection Ep as -> ->. apply S2 in I as (i & j & -> & Hij & I). pose proof (U _ _ _ I) as ->. cbn in E.
          pose proof (proj2 (E i) (or_introl eq_refl)) as H1. pose proof (proj2 (E j) (or_intror (or_introl eq_refl))) as H2. apply Hs in H1, H2. f_equal. f_equal; [lia|f_equal; lia].
      + intros [b1 k1 fr s] I. destruct (hit _) eqn:E; [|reflexivity]. exfalso. apply hit_pair in E as [_ E]. apply S1 in I as (i & -> & Hij & _). cbn in E.
        pose proof (proj1 (E g) (proj2 (Hs g) (or_introl eq_refl))) as H1. pose proof (proj1 (E h) (proj2 (Hs h) (or_intror eq_refl))) as H2. cbn in H1, H2. lia.
  Qed.
  Lemma total_1c i j f0 : In r0 (t_1c T) -> e_frags r0 = [i; j] -> (forall f, In f fs <-> f = i \/ f = j \/ f = f0) -> total = 1.
  Proof.
    intros Ir Ef Hs. rewrite total_eq. pose proof (kind_1c _ Ir) as K0. assert (Hf : f0 < nf) by (apply Hfs, Hs; auto).
    rewrite no_1d, no_2d by congruence. rewrite (other_0 _ in_b2) by (intros r I; rewrite (kind_1s r I); congruence).
    rewrite (other_0 _ in_b3) by (intros r I; rewrite (kind_1s1c r I); congruence). rewrite (other_0 _ in_b4) by (intros r I; rewrite (kind_2c r I); congruence).
    destruct (C54_spectators _ _ _ Ad Nd) as (_ & _ & _ & S3). fold T in S3. destruct (C54_rows _ _ _ Ad) as (_ & R1 & _). fold T in R1.
    destruct (in_dec Nat.eq_dec f0 [i; j]) as [I|I].
    - rewrite (own_1 (t_1c T)); auto; [|apply tabs_nodup; cbn; tauto|intros r Hr; now apply in_b1|].
      + rewrite hits_0; [reflexivity|]. intros [b1 k1 fr s] Ir'. destruct (hit _) eqn:E; [|reflexivity]. exfalso. apply hit_pair in E as [Ep E]. apply S3 in Ir' as (i' & j' & f' & -> & Hf' & N1 & N2 & Ir').
        assert (Q : r0 = mkRow b1 k1 [i'; j'] s) by (apply base_inj; [exact I0|now apply in_b1|rewrite P0; symmetry; first [exact Ep|reflexivity]]). rewrite Q in Ef. cbn in Ef. injection Ef as Ei Ej. subst i j. cbn in E.
        assert (Q' : f' = i' \/ f' = j' \/ f' = f0) by (apply Hs, E; auto). cbn in I. destruct Q' as [Q'|[Q'|Q']]; [congruence|congruence|]. destruct I as [I|[I|[]]]; congruence.
      + intros f. rewrite Hs, Ef. cbn in *. intuition congruence.
    - rewrite (own_0 (t_1c T)); auto; [|intros r Hr; now apply in_b1|].
      + rewrite (hits_1 (t_1c1d T) (mkRow b k [i; j; f0] (e_spin r0))); [reflexivity|..].
        * apply tabs_nodup. cbn. tauto.
        * apply S3. exists i, j, f0. cbn in I. repeat split; auto; try (intros ->; apply I; auto). destruct r0 as [b1 k1 fr s]. cbn in *. injection P0 as -> ->. now rewrite <- Ef.
        * apply hit_intro; [reflexivity|]. intros f. rewrite Hs. cbn. intuition congruence.
        * intros [b1 k1 fr s] Ir' E. apply hit_pair in E as [Ep E]. cbn in Ep. injection Ep as -> ->. apply S3 in Ir' as (i' & j' & f' & -> & Hf' & N1 & N2 & Ir').
          assert (Q : r0 = mkRow b k [i'; j'] s) by (apply base_inj; [exact I0|now apply in_b1|rewrite P0; symmetry; first [exact Ep|reflexivity]]). rewrite Q in Ef |- *. cbn in Ef |- *. injection Ef as Ei Ej. subst i j. cbn in E.
          assert (Q' : f' = i' \/ f' = j' \/ f' = f0) by (apply Hs, E; auto). destruct Q' as [Q'|[Q'|Q']]; congruence.
      + intros C. apply I. rewrite <- Ef. apply C, Hs. auto.
  Qed.
  Lemma total_1s : In r0 (t_1s T) -> (forall f, In f fs <-> In f (e_frags r0)) -> total = 1.
  Proof.
    intros Ir Hs. rewrite total_eq. pose proof (kind_1s _ Ir) as K0. rewrite no_1d, no_2d, no_1c1d by congruence.
    rewrite (other_0 _ in_b1) by (intros r I; rewrite (kind_1c r I); congruence).
    rewrite (other_0 _ in_b3) by (intros r I; rewrite (kind_1s1c r I); congruence). rewrite (other_0 _ in_b4) by (intros r I; rewrite (kind_2c r I); congruence).
    rewrite (own_1 (t_1s T)); auto; [apply tabs_nodup; cbn; tauto|intros; now apply in_b2].
  Qed.
  Lemma total_1s1c : In r0 (t_1s1c T) -> (forall f, In f fs <-> In f (e_frags r0)) -> total = 1.
  Proof.
    intros Ir Hs. rewrite total_eq. pose proof (kind_1s1c _ Ir) as K0. rewrite no_1d, no_2d, no_1c1d by congruence.
    rewrite (other_0 _ in_b1) by (intros r I; rewrite (kind_1c r I); congruence).
    rewrite (other_0 _ in_b2) by (intros r I; rewrite (kind_1s r I); congruence). rewrite (other_0 _ in_b4) by (intros r I; rewrite (kind_2c r I); congruence).
    rewrite (own_1 (t_1s1c T)); auto; [apply tabs_nodup; cbn; tauto|intros; now apply in_b3].
  Qed.
  Lemma total_2c : In r0 (t_2c T) -> (forall f, In f fs <-> In f (e_frags r0)) -> total = 1.
  Proof.
    intros Ir Hs. rewrite total_eq. pose proof (kind_2c _ Ir) as K0. rewrite no_1d, no_2d, no_1c1d by congruence.
    rewrite (other_0 _ in_b1) by (intros r I; rewrite (kind_1c r I); congruence).
    rewrite (other_0 _ in_b2) by (intros r I; rewrite (kind_1s r I); congruence). rewrite (other_0 _ in_b3) by (intros r I; rewrite (kind_1s1c r I); congruence).
    rewrite (own_1 (t_2c T)); auto; [apply tabs_nodup; cbn; tauto|intros; now apply in_b4].
  Qed.
  End Count.
End Shape.
