(** The kernels of lib/fsucc.c apply the operators they claim to apply. *)
From Coq Require Import List NArith ZArith Arith Bool Lia Ring Sorting.Permutation.
From Verif Require Import Star FockSpec FockFacts FsuccModel FsuccFacts.
Import ListNotations.

Lemma allset_sets d l : NoDup l -> allset (sets d l) l = true.
Proof. intros H. apply allset_iff. split; [assumption|]. intros q Hq. rewrite bt_sets. apply orb_true_iff. left. now apply existsb_eq. Qed.
Lemma clrs_sets d l : (forall q, In q l -> bt d q = false) -> clrs (sets d l) l = d.
Proof.
  intros H. apply bt_ext. intros q. rewrite bt_clrs, bt_sets. destruct (existsb (fun a => (a =? q)%nat) l) eqn:E; [|reflexivity].
  cbn. symmetry. apply H. now apply existsb_eq.
Qed.
Lemma sets_clrs d l : (forall q, In q l -> bt d q = true) -> sets (clrs d l) l = d.
Proof.
  intros H. apply bt_ext. intros q. rewrite bt_sets, bt_clrs. destruct (existsb (fun a => (a =? q)%nat) l) eqn:E; [|reflexivity].
  cbn. symmetry. apply H. now apply existsb_eq.
Qed.
Lemma sets_lt d l m : (d < 2 ^ N.of_nat m)%N -> Forall (fun q => (q < m)%nat) l -> (sets d l < 2 ^ N.of_nat m)%N.
Proof.
  intros Hd Hl. apply lt_pow. intros q Hq. rewrite bt_sets, (bt_high d m q) by assumption. rewrite orb_false_r.
  apply existsb_neq. intros C. rewrite Forall_forall in Hl. specialize (Hl q C). lia.
Qed.
Lemma clrs_lt d l m : (d < 2 ^ N.of_nat m)%N -> (clrs d l < 2 ^ N.of_nat m)%N.
Proof. intros Hd. apply lt_pow. intros q Hq. rewrite bt_clrs, (bt_high d m q) by assumption. apply andb_false_r. Qed.

(** nothing of [l] is occupied in [d] *)
Definition empty_on (d : N) (l : list nat) : Prop := forall q, In q l -> bt d q = false.
Lemma sets_same_part d e l l' L : (forall q, In q l -> In q L) -> (forall q, In q l' -> In q L) ->
  empty_on d L -> empty_on e L -> sets d l = sets e l' -> d = e.
Proof.
  intros S1 S2 Hd He H. apply bt_ext. intros q. destruct (in_dec Nat.eq_dec q L) as [Hq|Hq]; [now rewrite (Hd q Hq), (He q Hq)|].
  pose proof (f_equal (fun x => bt x q) H) as E. cbv beta in E. rewrite !bt_sets in E.
  rewrite (proj2 (existsb_neq l q)), (proj2 (existsb_neq l' q)) in E by auto. exact E.
Qed.

Section Kern.
Variable K : star_ring.
Add Ring Kring : (sring K).
Local Open Scope star_scope.
Notation sg := (sg K). Notation exop := (exop K). Notation vec := (vec K).
Variable is0 : K -> bool.
Hypothesis is0_ok : forall x : K, is0 x = true -> x = s0.
Variable sched : list N -> list N.
Hypothesis sched_ok : forall l, Permutation (sched l) l.

Lemma of_int_sgn (b : bool) (x : K) : of_int K (if b then -1 else 1)%Z * x = sg b x.
Proof. destruct b; cbn; ring. Qed.

Definition sigma (m : nat) (a i : list nat) (d : N) : bool := xorb (pop m a (sets d a)) (pop m i (sets d i)).
Lemma sigma_sym m a i d : sigma m i a d = sigma m a i d.
Proof. apply xorb_comm. Qed.

(** value on the determinants the operator reaches *)
Lemma exop_hit m a i (v : vec) d : NoDup a -> NoDup i -> empty_on d (i ++ a) ->
  exop m a i v (sets d a) = sg (sigma m a i d) (v (sets d i)).
Proof.
  intros Ha Hi Hd. rewrite exop_at. rewrite allset_sets by assumption. rewrite clrs_sets by (intros; apply Hd, in_or_app; now right).
  replace (allclr d i) with true; [reflexivity|]. symmetry. apply allclr_iff. split; [assumption|]. intros; apply Hd, in_or_app; now left.
Qed.
Lemma exop_miss m a i e :
  (exists d, e = sets d a /\ NoDup a /\ NoDup i /\ empty_on d (i ++ a)) \/
  ((forall d, e = sets d a -> NoDup a -> NoDup i -> empty_on d (i ++ a) -> False) /\ forall v : vec, exop m a i v e = s0).
Proof.
  destruct (allset e a && allclr (clrs e a) i) eqn:C.
  - left. apply andb_true_iff in C. destruct C as [C1 C2]. apply allset_iff in C1. apply allclr_iff in C2.
    exists (clrs e a). split; [symmetry; now apply sets_clrs|]. split; [apply C1|]. split; [apply C2|].
    intros q Hq. apply in_app_or in Hq. destruct Hq as [Hq|Hq]; [now apply C2|]. rewrite bt_clrs, (proj2 (existsb_eq a q) Hq). reflexivity.
  - right. split; [|intros v; rewrite exop_at, C; reflexivity]. intros d -> Na Ni Hd.
    rewrite allset_sets in C by assumption. rewrite clrs_sets in C by (intros; apply Hd, in_or_app; now right). cbn in C.
    assert (T : allclr d i = true); [|congruence]. apply allclr_iff. split; [assumption|]. intros; apply Hd, in_or_app; now left.
Qed.
(** when the two lists are different sets, creating the one set never gives the other *)
Definition differ (a i : list nat) : Prop := exists q, (In q a /\ ~ In q i) \/ (In q i /\ ~ In q a).
Lemma exop_other m a i (v : vec) d : differ a i -> empty_on d (i ++ a) -> exop m i a v (sets d a) = s0.
Proof.
  intros [q Hq] Hd. rewrite exop_at. destruct (allset (sets d a) i && allclr (clrs (sets d a) i) a) eqn:C; [exfalso|reflexivity].
  apply andb_true_iff in C. destruct C as [C1 C2]. apply allset_iff in C1. apply allclr_iff in C2. destruct C1 as [_ C1], C2 as [_ C2].
  destruct Hq as [[Hq Hn]|[Hq Hn]].
  - specialize (C2 q Hq). rewrite bt_clrs, (proj2 (existsb_neq i q) Hn), bt_sets, (proj2 (existsb_eq a q) Hq) in C2. discriminate.
  - specialize (C1 q Hq). rewrite bt_sets, (proj2 (existsb_neq a q) Hn) in C1. cbn in C1. rewrite Hd in C1 by (apply in_or_app; now left). discriminate.
Qed.

Notation gen := (gen K).

Lemma empty_swap d a i : empty_on d (i ++ a) -> empty_on d (a ++ i).
Proof. intros H q Hq. apply H. apply in_or_app. apply in_app_or in Hq. tauto. Qed.
Lemma differ_swap a i : differ a i -> differ i a.
Proof. intros [q Hq]. exists q. tauto. Qed.

Lemma gen_ai m a i (v : vec) d : differ a i -> NoDup a -> NoDup i -> empty_on d (i ++ a) ->
  gen m a i v (sets d a) = sg (sigma m a i d) (v (sets d i)).
Proof. intros D Na Ni Hd. unfold FockSpec.gen, vsub. rewrite exop_hit, exop_other by assumption. ring. Qed.
Lemma gen_ia m a i (v : vec) d : differ a i -> NoDup a -> NoDup i -> empty_on d (i ++ a) ->
  gen m a i v (sets d i) = - sg (sigma m a i d) (v (sets d a)).
Proof.
  intros D Na Ni Hd. unfold FockSpec.gen, vsub. apply empty_swap in Hd. apply differ_swap in D.
  rewrite exop_hit, exop_other by assumption. rewrite sigma_sym. ring.
Qed.
Lemma gen_miss m a i e :
  (exists d, (e = sets d a \/ e = sets d i) /\ NoDup a /\ NoDup i /\ empty_on d (i ++ a)) \/
  ((forall d, (e = sets d a \/ e = sets d i) -> NoDup a -> NoDup i -> empty_on d (i ++ a) -> False) /\ forall v : vec, gen m a i v e = s0).
Proof.
  destruct (exop_miss m a i e) as [[d [-> [Na [Ni Hd]]]]|[M1 Z1]].
  - left. exists d. auto.
  - destruct (exop_miss m i a e) as [[d [-> [Ni [Na Hd]]]]|[M2 Z2]].
    + left. exists d. apply empty_swap in Hd. auto.
    + right. split.
      * intros d [E|E] Na Ni Hd; [exact (M1 d E Na Ni Hd)|]. apply empty_swap in Hd. exact (M2 d E Ni Na Hd).
      * intros v. unfold FockSpec.gen, vsub. rewrite Z1, Z2. ring.
Qed.

(** ** the loop of FSUCCcontract1 *)
Section Loop.
Variable (norb : nat) (a i : list nat).
Hypothesis Hn : (norb < 31)%nat.
Hypothesis Ha : Forall (fun q => (q < norb)%nat) a.
Hypothesis Hi : Forall (fun q => (q < norb)%nat) i.
Let mask : N := N.lor (sets 0 i) (sets 0 a).
Let range : list N := sched (nrange (count_dets norb mask)).

Lemma defined : negb ((norb <? 31)%nat && forallb (fun q => (q <? norb)%nat) (a ++ i)) = false.
Proof.
  apply negb_false_iff, andb_true_iff. split; [apply Nat.ltb_lt; assumption|]. apply forallb_forall. intros q Hq.
  apply Nat.ltb_lt. rewrite Forall_forall in Ha, Hi. apply in_app_or in Hq. destruct Hq; auto.
Qed.
Lemma bt_mask q : bt mask q = true <-> In q (i ++ a).
Proof. unfold mask. rewrite lor_sets_sets, bt_sets, bt_0, orb_false_r. apply existsb_eq. Qed.
Lemma lt_orb q : In q (i ++ a) -> (q < norb)%nat.
Proof. intros Hq. rewrite Forall_forall in Ha, Hi. apply in_app_or in Hq. destruct Hq; auto. Qed.
Lemma spread_empty d : empty_on (spread norb mask d) (i ++ a).
Proof. intros q Hq. apply spread_clear; [now apply lt_orb|now apply bt_mask]. Qed.
Lemma in_range d : In d range <-> (spread norb mask d < 2 ^ N.of_nat norb)%N.
Proof.
  unfold range. rewrite spread_lt by lia. rewrite <- count_dets_spec, <- in_nrange.
  split; apply Permutation_in; [apply sched_ok|apply Permutation_sym, sched_ok].
Qed.
Lemma NoDup_range : NoDup range.
Proof. unfold range. apply (Permutation_NoDup (Permutation_sym (sched_ok _))). apply NoDup_nrange. Qed.
Lemma range_onto d : empty_on d (i ++ a) -> (d < 2 ^ N.of_nat norb)%N -> exists x, In x range /\ spread norb mask x = d.
Proof.
  intros He Hd. destruct (spread_onto norb mask d) as [x Hx]; [intros q _ Hq; apply He; now apply bt_mask|].
  exists x. split; [|assumption]. apply in_range. now rewrite Hx.
Qed.

Definition cell_ia (x : N) : N := N.lor (spread norb mask x) (sets 0 i).
Definition cell_ai (x : N) : N := N.lor (spread norb mask x) (sets 0 a).
Lemma cell_ia_eq x : cell_ia x = sets (spread norb mask x) i.
Proof. apply lor_sets. Qed.
Lemma cell_ai_eq x : cell_ai x = sets (spread norb mask x) a.
Proof. apply lor_sets. Qed.

(** no cell is touched by two iterations *)
Lemma cells_disjoint x y : x <> y -> forall e, In e [cell_ia x; cell_ai x] -> ~ In e [cell_ia y; cell_ai y].
Proof.
  intros Hxy e H1 H2. apply Hxy. apply (spread_inj norb mask).
  rewrite cell_ia_eq, cell_ai_eq in H1, H2. pose proof (spread_empty x) as Ex. pose proof (spread_empty y) as Ey.
  assert (L1 : forall q, In q i -> In q (i ++ a)) by (intros; apply in_or_app; now left).
  assert (L2 : forall q, In q a -> In q (i ++ a)) by (intros; apply in_or_app; now right).
  destruct H1 as [<-|[<-|[]]], H2 as [H2|[H2|[]]]; symmetry in H2; revert H2; apply sets_same_part with (L := i ++ a); assumption.
Qed.

Lemma wr_same (v : vec) d x : wr K v d x d = x.
Proof. unfold wr. now rewrite N.eqb_refl. Qed.
Lemma wr_other (v : vec) d x e : e <> d -> wr K v d x e = v e.
Proof. intros H. unfold wr. now rewrite (proj2 (N.eqb_neq e d) H). Qed.

Lemma sign_at x : NoDup a -> NoDup i ->
  sign_of norb a i (cell_ia x) (cell_ai x) = (if sigma norb a i (spread norb mask x) then -1 else 1)%Z.
Proof.
  intros Na Ni. rewrite cell_ia_eq, cell_ai_eq. rewrite sign_of_spec by now apply allset_sets. reflexivity.
Qed.

Theorem contract1g_spec (g : K) (psi hpsi : vec) :
  exists r, contract1g K is0 sched norb a i g psi hpsi = Some r /\
    (forall e, (e < 2 ^ N.of_nat norb)%N -> r e = hpsi e + g * exop norb a i psi e) /\
    (forall e, ~ (e < 2 ^ N.of_nat norb)%N -> r e = hpsi e).
Proof.
  unfold contract1g, contract1. rewrite defined.
  assert (Z : ~ (NoDup a /\ NoDup i) -> forall e, hpsi e = hpsi e + g * exop norb a i psi e).
  { intros C e. destruct (exop_miss norb a i e) as [[d [_ [X [Y _]]]]|[_ E]]; [now elim C|]. rewrite E. ring. }
  destruct (ListDec.NoDup_dec Nat.eq_dec i) as [Ni|Ni].
  2:{ rewrite (setbits_dup i Ni). exists hpsi. split; [destruct (setbits a); reflexivity|]. split; [|reflexivity]. intros e _. apply Z. tauto. }
  destruct (ListDec.NoDup_dec Nat.eq_dec a) as [Na|Na].
  2:{ rewrite (setbits_dup a Na). exists hpsi. split; [destruct (setbits i); reflexivity|]. split; [|reflexivity]. intros e _. apply Z. tauto. }
  clear Z. rewrite (setbits_ok i Ni), (setbits_ok a Na). eexists. split; [reflexivity|]. fold mask range.
  match goal with |- context [fold_left ?f _ _] => set (step := f) end.
  destruct (fold_foot step (fun x => [cell_ai x]) range hpsi NoDup_range) as [F1 F2].
  - intros x _ s e He. unfold step. cbv zeta. fold (cell_ia x) (cell_ai x).
    destruct (is0 _ && is0 _); [reflexivity|]. unfold mixdetg. apply wr_other. intros ->. apply He. now left.
  - intros x _ s s' Hs e [<-|[]]. unfold step. cbv zeta. fold (cell_ia x) (cell_ai x).
    specialize (Hs (cell_ai x) (or_introl eq_refl)). destruct (is0 _ && is0 _); [assumption|]. unfold mixdetg. rewrite !wr_same. now rewrite Hs.
  - intros x y _ _ Hxy e [<-|[]] [E|[]]. apply (cells_disjoint x y Hxy (cell_ai x)); [right; now left|right; left; assumption].
  - split.
    + intros e He. destruct (exop_miss norb a i e) as [[d [-> [_ [_ Hd]]]]|[M Z]].
      * assert (Ld : (d < 2 ^ N.of_nat norb)%N).
        { rewrite <- (clrs_sets d a) by (intros; apply Hd, in_or_app; now right). now apply clrs_lt. }
        destruct (range_onto d Hd Ld) as [x [Hx Ex]]. 
        assert (C : cell_ai x = sets d a) by (rewrite cell_ai_eq, Ex; reflexivity).
        assert (C' : cell_ia x = sets d i) by (rewrite cell_ia_eq, Ex; reflexivity).
        rewrite (F1 x Hx (sets d a)) by (rewrite C; now left). unfold step. cbv zeta. fold (cell_ia x) (cell_ai x).
        rewrite (sign_at x Na Ni), Ex, C, C'. rewrite (exop_hit norb a i psi d Na Ni Hd).
        destruct (is0 (psi (sets d i)) && is0 (psi (sets d a))) eqn:Z.
        -- apply andb_true_iff in Z. destruct Z as [Z _]. apply is0_ok in Z. rewrite Z, sg_0. ring.
        -- unfold mixdetg. rewrite wr_same. f_equal. rewrite <- of_int_sgn. ring.
      * rewrite F2; [rewrite Z; ring|]. intros x _ [E|[]]. rewrite cell_ai_eq in E.
        exact (M _ (eq_sym E) Na Ni (spread_empty x)).
    + intros e He. apply F2. intros x Hx [E|[]]. apply He. rewrite <- E, cell_ai_eq. apply sets_lt; [now apply in_range|assumption].
Qed.

Theorem contract1u_spec (c s : K) (psi : vec) : differ a i ->
  exists r, contract1u K is0 sched norb a i c s psi = Some r /\
    (forall e, (e < 2 ^ N.of_nat norb)%N ->
       r e = psi e + s * gen norb a i psi e + (s1 - c) * gen norb a i (gen norb a i psi) e) /\
    (forall e, ~ (e < 2 ^ N.of_nat norb)%N -> r e = psi e).
Proof.
  intros D. unfold contract1u, contract1. rewrite defined.
  assert (Z : ~ (NoDup a /\ NoDup i) -> forall e, psi e = psi e + s * gen norb a i psi e + (s1 - c) * gen norb a i (gen norb a i psi) e).
  { intros C e. destruct (gen_miss norb a i e) as [[d [_ [X [Y _]]]]|[_ E]]; [now elim C|]. rewrite !E. ring. }
  destruct (ListDec.NoDup_dec Nat.eq_dec i) as [Ni|Ni].
  2:{ rewrite (setbits_dup i Ni). exists psi. split; [destruct (setbits a); reflexivity|]. split; [|reflexivity]. intros e _. apply Z. tauto. }
  destruct (ListDec.NoDup_dec Nat.eq_dec a) as [Na|Na].
  2:{ rewrite (setbits_dup a Na). exists psi. split; [destruct (setbits i); reflexivity|]. split; [|reflexivity]. intros e _. apply Z. tauto. }
  clear Z. rewrite (setbits_ok i Ni), (setbits_ok a Na). eexists. split; [reflexivity|]. fold mask range.
  match goal with |- context [fold_left ?f _ _] => set (step := f) end.
  assert (NE : forall d, empty_on d (i ++ a) -> sets d i <> sets d a).
  { intros d Hd E. destruct D as [q Hq]. pose proof (f_equal (fun x => bt x q) E) as B. cbv beta in B. rewrite !bt_sets in B.
    destruct Hq as [[H1 H2]|[H1 H2]]; rewrite (proj2 (existsb_eq _ q) H1), (proj2 (existsb_neq _ q) H2), Hd in B by (apply in_or_app; tauto); discriminate. }
  assert (NC : forall x, cell_ia x <> cell_ai x) by (intros x; rewrite cell_ia_eq, cell_ai_eq; apply NE, spread_empty).
  destruct (fold_foot step (fun x => [cell_ia x; cell_ai x]) range psi NoDup_range) as [F1 F2].
  - intros x _ s' e He. unfold step. cbv zeta. fold (cell_ia x) (cell_ai x).
    destruct (is0 _ && is0 _); [reflexivity|]. unfold mixdetu. cbv zeta.
    rewrite wr_other by (intros ->; apply He; right; now left). apply wr_other. intros ->. apply He. now left.
  - intros x _ s' s'' Hs e He. unfold step. cbv zeta. fold (cell_ia x) (cell_ai x).
    pose proof (Hs (cell_ia x) (or_introl eq_refl)) as H1. pose proof (Hs (cell_ai x) (or_intror (or_introl eq_refl))) as H2.
    rewrite H1, H2. destruct (is0 _ && is0 _); [now apply Hs|]. unfold mixdetu. cbv zeta.
    destruct He as [<-|[<-|[]]].
    + rewrite !(wr_other _ (cell_ai x) _ (cell_ia x)) by apply NC. rewrite !wr_same. now rewrite H1, H2.
    + rewrite !wr_same. rewrite !(wr_other _ (cell_ia x) _ (cell_ai x)) by (apply not_eq_sym, NC). now rewrite H1, H2.
  - intros x y _ _ Hxy. now apply cells_disjoint.
  - split.
    + intros e He. destruct (gen_miss norb a i e) as [[d [Ee [_ [_ Hd]]]]|[M Z]].
      * assert (Ld : (d < 2 ^ N.of_nat norb)%N).
        { destruct Ee as [-> | ->].
          - rewrite <- (clrs_sets d a) by (intros; apply Hd, in_or_app; now right). now apply clrs_lt.
          - rewrite <- (clrs_sets d i) by (intros; apply Hd, in_or_app; now left). now apply clrs_lt. }
        destruct (range_onto d Hd Ld) as [x [Hx Ex]]. 
        assert (C : cell_ai x = sets d a) by (rewrite cell_ai_eq, Ex; reflexivity).
        assert (C' : cell_ia x = sets d i) by (rewrite cell_ia_eq, Ex; reflexivity).
        rewrite (F1 x Hx e) by (rewrite C, C'; cbn; intuition). unfold step. cbv zeta. fold (cell_ia x) (cell_ai x).
        rewrite (sign_at x Na Ni), Ex, C, C'.
        pose proof (NE d Hd) as NEd.
        destruct (is0 (psi (sets d i)) && is0 (psi (sets d a))) eqn:Z.
        -- apply andb_true_iff in Z. destruct Z as [Z1 Z2]. apply is0_ok in Z1, Z2.
           destruct Ee as [-> | ->].
           ++ rewrite (gen_ai norb a i (gen norb a i psi) d D Na Ni Hd), (gen_ai norb a i psi d D Na Ni Hd), (gen_ia norb a i psi d D Na Ni Hd).
              rewrite Z1, Z2, sg_opp, !sg_0. ring.
           ++ rewrite (gen_ia norb a i (gen norb a i psi) d D Na Ni Hd), (gen_ai norb a i psi d D Na Ni Hd), (gen_ia norb a i psi d D Na Ni Hd).
              rewrite Z1, Z2, !sg_0. ring.
        -- unfold mixdetu. cbv zeta. rewrite of_int_sgn.
           destruct Ee as [-> | ->].
           ++ rewrite wr_same, wr_other by (now apply not_eq_sym). rewrite (gen_ai norb a i (gen norb a i psi) d D Na Ni Hd), (gen_ai norb a i psi d D Na Ni Hd), (gen_ia norb a i psi d D Na Ni Hd).
              rewrite sg_opp, sg_inv, sg_mul, mul_sg. ring.
           ++ rewrite wr_other by assumption. rewrite wr_same. rewrite (gen_ia norb a i (gen norb a i psi) d D Na Ni Hd), (gen_ai norb a i psi d D Na Ni Hd), (gen_ia norb a i psi d D Na Ni Hd).
              rewrite sg_inv, sg_mul.  replace (s * - sg (sigma norb a i d) (psi (sets d a))) with (- (s * sg (sigma norb a i d) (psi (sets d a)))) by ring. rewrite mul_sg. ring.
      * rewrite F2; [rewrite !Z; ring|]. intros x _ HE. rewrite cell_ia_eq, cell_ai_eq in HE.
        refine (M (spread norb mask x) _ Na Ni (spread_empty x)). destruct HE as [E|[E|[]]]; [right|left]; now symmetry.
    + intros e He. apply F2. intros x Hx HE. apply He. rewrite cell_ia_eq, cell_ai_eq in HE.
      destruct HE as [<-|[<-|[]]]; (apply sets_lt; [now apply in_range|assumption]).
Qed.

Theorem projai_spec (psi : vec) :
  exists r, projai K norb a i psi = Some r /\
    (forall e, (e < 2 ^ N.of_nat norb)%N ->
      r e = if (forallb (fun q => Bool.eqb (bt e q) (existsb (Nat.eqb q) a)) (a ++ i)
               || forallb (fun q => Bool.eqb (bt e q) (existsb (Nat.eqb q) i)) (a ++ i))
            then psi e else s0) /\
    (forall e, ~ (e < 2 ^ N.of_nat norb)%N -> r e = psi e).
Proof.
  unfold projai. rewrite defined. eexists. split; [reflexivity|].
  assert (OR : forall l d, fold_left (fun d i => N.lor d (bit i)) l d = sets d l).
  { induction l as [|q l IH]; intros d; [reflexivity|]. cbn [fold_left sets]. rewrite <- IH. reflexivity. }
  unfold orbits. rewrite !OR. fold mask.
  assert (EQ : forall e l, (l = a \/ l = i) -> (N.land e mask =? sets 0 l)%N = forallb (fun q => Bool.eqb (bt e q) (existsb (Nat.eqb q) l)) (a ++ i)).
  { intros e l Hl. apply eq_true_iff_eq. rewrite N.eqb_eq, forallb_forall. 
    assert (XE : forall q, existsb (Nat.eqb q) l = existsb (fun x => (x =? q)%nat) l).
    { intros q. clear. induction l as [|x l IH]; [reflexivity|]. cbn [existsb]. now rewrite IH, Nat.eqb_sym. }
    split.
    - intros E q Hq. rewrite eqb_true_iff. pose proof (f_equal (fun x => bt x q) E) as B. cbv beta in B.
      rewrite bt_land, bt_sets, bt_0, orb_false_r in B. rewrite (proj2 (bt_mask q)) in B by (apply in_or_app; apply in_app_or in Hq; tauto).
      rewrite andb_true_r in B. now rewrite XE.
    - intros H. apply bt_ext. intros q. rewrite bt_land, bt_sets, bt_0, orb_false_r. destruct (bt mask q) eqn:B.
      + rewrite andb_true_r. rewrite bt_mask in B. specialize (H q). rewrite eqb_true_iff, XE in H. apply H. apply in_or_app. apply in_app_or in B. tauto.
      + rewrite andb_false_r. symmetry. apply existsb_neq. intros C. assert (T : bt mask q = true); [|congruence].
        apply bt_mask, in_or_app. destruct Hl as [-> | ->]; tauto. }
  match goal with |- context [fold_left ?f _ _] => set (step := f) end.
  destruct (fold_foot step (fun x => [x]) (nrange (bit norb)) psi (NoDup_nrange _)) as [F1 F2].
  - intros x _ s' e He. unfold step. destruct (_ =? _)%N; [reflexivity|]. destruct (_ =? _)%N; [reflexivity|]. apply wr_other. intros ->. apply He. now left.
  - intros x _ s' s'' Hs e [<-|[]]. unfold step. destruct (_ =? _)%N; [apply Hs; now left|]. destruct (_ =? _)%N; [apply Hs; now left|]. now rewrite !wr_same.
  - intros x y _ _ Hxy e [<-|[]] [E|[]]. congruence.
  - split.
    + intros e He. rewrite (F1 e) by (try (now left); apply in_nrange; now rewrite bit_pow). unfold step.
      rewrite !EQ by auto. destruct (forallb _ (a ++ i)), (forallb _ (a ++ i)); try reflexivity. apply wr_same.
    + intros e He. apply F2. intros x Hx [E|[]]. subst x. apply He. rewrite <- bit_pow. now apply in_nrange.
Qed.
End Loop.
End Kern.
