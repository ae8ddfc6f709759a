(** Contracting the tables of the fragments with a density matrix of the fragments is the weighted sum of what the crunchers of LSTDM
    make of each pair of local states. *)
From Coq Require Import List ZArith Bool Arith Lia Permutation Ring.
From Verif Require Import Base BaseFacts Star AddrModel AddrFacts AddrSpec AddrProofs ExcModel UexcModel StdmModel StdmFacts SignsModel CrunchModel HamModel HamLoop RdmModel RdmSums RdmFdm RdmPart.
Import ListNotations.
Local Open Scope nat_scope.

Section Lin.
  Context {K : star_ring}.
  Add Ring Kring : (sring K).
  Notation arr := (@arr K).
  Definition val (r : res arr) : arr := match r with Ok a => a | Raise _ => fun _ => s0 end.

  (** ** nested sums *)
  Variables cb ck : list nat.
  Variable n : nat.
  Let z := repeat 0 n.
  Notation tsum := (tsum cb ck).
  Lemma z_len : length z = n.
  Proof. apply repeat_length. Qed.
  Notation B f := (seq 0 (nth f cb 0)).
  Notation C f := (seq 0 (nth f ck 0)).
  Ltac pts := rewrite ?put_at by (rewrite ?put_len, ?z_len; lia); reflexivity.
  Lemma nested1 i (G : nat -> nat -> K) : i < n -> bsum (B i) (fun x => bsum (C i) (fun y => G x y)) = tsum [i] (fun e e' => G (nth i e 0) (nth i e' 0)) z z.
  Proof. intros Hi. cbn [RdmPart.tsum]. apply bsum_ext. intros x _. apply bsum_ext. intros y _. rewrite !put_at by (rewrite z_len; lia). reflexivity. Qed.
  Ltac put1 := first [rewrite put_at by (rewrite ?put_len, ?z_len; lia) | rewrite put_other by congruence].
  Lemma nested2 j i (G : nat -> nat -> nat -> nat -> K) : i < n -> j < n -> i <> j ->
    bsum (B j) (fun x1 => bsum (C j) (fun y1 => bsum (B i) (fun x => bsum (C i) (fun y => G x1 y1 x y)))) = tsum [j; i] (fun e e' => G (nth j e 0) (nth j e' 0) (nth i e 0) (nth i e' 0)) z z.
  Proof. intros Hi Hj N. cbn [RdmPart.tsum]. do 4 (apply bsum_ext; intros ? _). repeat put1. reflexivity. Qed.
  Lemma nested3 k j i (G : nat -> nat -> nat -> nat -> nat -> nat -> K) : i < n -> j < n -> k < n -> i <> j -> i <> k -> j <> k ->
    bsum (B k) (fun x2 => bsum (C k) (fun y2 => bsum (B j) (fun x1 => bsum (C j) (fun y1 => bsum (B i) (fun x => bsum (C i) (fun y => G x2 y2 x1 y1 x y)))))) =
    tsum [k; j; i] (fun e e' => G (nth k e 0) (nth k e' 0) (nth j e 0) (nth j e' 0) (nth i e 0) (nth i e' 0)) z z.
  Proof. intros Hi Hj Hk N1 N2 N3. cbn [RdmPart.tsum]. do 6 (apply bsum_ext; intros ? _). repeat put1. reflexivity. Qed.
  Lemma nested4 l k j i (G : nat -> nat -> nat -> nat -> nat -> nat -> nat -> nat -> K) : i < n -> j < n -> k < n -> l < n -> i <> j -> i <> k -> i <> l -> j <> k -> j <> l -> k <> l ->
    bsum (B l) (fun x3 => bsum (C l) (fun y3 => bsum (B k) (fun x2 => bsum (C k) (fun y2 => bsum (B j) (fun x1 => bsum (C j) (fun y1 => bsum (B i) (fun x => bsum (C i) (fun y => G x3 y3 x2 y2 x1 y1 x y)))))))) =
    tsum [l; k; j; i] (fun e e' => G (nth l e 0) (nth l e' 0) (nth k e 0) (nth k e' 0) (nth j e 0) (nth j e' 0) (nth i e 0) (nth i e' 0)) z z.
  Proof. intros. cbn [RdmPart.tsum]. do 8 (apply bsum_ext; intros ? _). repeat put1. reflexivity. Qed.
  Lemma tsum_zero l : forall e e', tsum l (fun _ _ => s0) e e' = (s0 : K).
  Proof. induction l as [|f l IH]; intros e e'; cbn [RdmPart.tsum]; [reflexivity|]. apply bsum_0. intros x _. apply bsum_0. intros y _. apply IH. Qed.
  Lemma tsum_opp l (F : list nat -> list nat -> K) : forall e e', tsum l (fun a b => sopp (F a b)) e e' = sopp (tsum l F e e').
  Proof.
    induction l as [|f l IH]; intros e e'; cbn [RdmPart.tsum]; [reflexivity|].
    assert (O : forall (s : list nat) (G : nat -> K), bsum s (fun x => sopp (G x)) = sopp (bsum s G)) by (induction s as [|a s IHs]; intros G; cbn; [ring|rewrite IHs; ring]).
    rewrite <- O. apply bsum_ext. intros x _. rewrite <- O. apply bsum_ext. intros y _. apply IH.
  Qed.

  (** ** arrays that are sums *)
  Variables (l : list nat) (fd : arr).
  Hypothesis Hl : forall f, In f l -> f < n.
  Hypothesis Hd : NoDup l.
  Definition inr (e e' : list nat) : Prop := forall f, In f l -> nth f e 0 < nth f cb 0 /\ nth f e' 0 < nth f ck 0.
  Definition ssum (A : list nat -> list nat -> K) : K := tsum l (fun e e' => smul (fd (inter l e e')) (A e e')) z z.
  Lemma ssum_ext A A' : (forall e e', length e = n -> length e' = n -> inr e e' -> A e e' = A' e e') -> ssum A = ssum A'.
  Proof.
    intros H. unfold ssum. apply tsum_ext; try exact Hd; try (intros f If; rewrite z_len; now apply Hl). intros a b La Lb Ra Rb _ _. rewrite z_len in La, Lb. f_equal. apply H; auto. intros f If. split; auto.
  Qed.
  Lemma tsum_ssum (F : list nat -> list nat -> K) A : (forall e e', length e = n -> length e' = n -> inr e e' -> F e e' = smul (fd (inter l e e')) (A e e')) -> tsum l F z z = ssum A.
  Proof.
    intros H. unfold ssum. apply tsum_ext; try exact Hd; try (intros f If; rewrite z_len; now apply Hl). intros a b La Lb Ra Rb _ _. rewrite z_len in La, Lb. apply H; auto. intros f If. split; auto.
  Qed.
  Definition lin (m : nat) (a : arr) (A : list nat -> list nat -> arr) : Prop := forall i, length i = m -> a i = ssum (fun e e' => A e e' i).
  Lemma lin_map m m' (g : list nat -> list nat) a A : (forall i, length i = m' -> length (g i) = m) -> lin m a A -> lin m' (fun i => a (g i)) (fun e e' i => A e e' (g i)).
  Proof. intros H L i Li. apply L. now apply H. Qed.
  Lemma lin_tpose m axes a A : length axes = m -> lin m a A -> lin m (tpose axes a) (fun e e' => tpose axes (A e e')).
  Proof. intros E L. apply (lin_map m m (fun i => map (fun k => nth (axis k axes) i 0) (seq 0 (length axes))) a A); [|exact L]. intros i _. now rewrite map_length, seq_length. Qed.
  Lemma lin_fmul m b a A : lin m a A -> lin m (fmul b a) (fun e e' => fmul b (A e e')).
  Proof.
    intros L i Li. unfold fmul. destruct b; [|now apply L]. rewrite (L i Li). unfold ssum. rewrite <- tsum_opp.
    apply tsum_ext; try exact Hd; try (intros f If; rewrite z_len; now apply Hl). intros; ring.
  Qed.
  Lemma lin_pick m bs a A : lin (S m) a A -> lin (S m) (pick bs a) (fun e e' => pick bs (A e e')).
  Proof. intros L. apply (lin_map (S m) (S m) (fun i => nth (hd 0 i) bs 0 :: tl i) a A); [|exact L]. intros [|x i] H; cbn in *; lia. Qed.
  Lemma lin_sub m s a A : lin (S m) a A -> lin m (sub s a) (fun e e' => sub s (A e e')).
  Proof. intros L. apply (lin_map (S m) m (fun i => s :: i) a A); [|exact L]. intros i H; cbn; lia. Qed.
  Lemma lin_join2 m a A : lin (S (S m)) a A -> lin (S m) (join2 a) (fun e e' => join2 (A e e')).
  Proof. intros L. apply (lin_map (S (S m)) (S m) (fun i => hd 0 i / 2 :: hd 0 i mod 2 :: tl i) a A); [|exact L]. intros [|x i] H; cbn in *; lia. Qed.
  Variable norb : nat -> nat.
  Definition lin1 (d : @D1 K) (D : list nat -> list nat -> @D1 K) : Prop := forall s p q, d s p q = ssum (fun e e' => D e e' s p q).
  Definition lin2 (d : @D2 K) (D : list nat -> list nat -> @D2 K) : Prop := forall b p q r u, d b p q r u = ssum (fun e e' => D e e' b p q r u).
  Lemma lin_zero : (s0 : K) = ssum (fun _ _ => s0).
  Proof. unfold ssum. symmetry. etransitivity; [|apply (tsum_zero l z z)]. apply tsum_ext; try exact Hd; try (intros f If; rewrite z_len; now apply Hl). intros; ring. Qed.
  Lemma lin1_z : lin1 z1 (fun _ _ => z1).
  Proof. intros s p q. apply lin_zero. Qed.
  Lemma lin2_z : lin2 z2 (fun _ _ => z2).
  Proof. intros b p q r u. apply lin_zero. Qed.
  Lemma lin_set1 bs f g a A d D : lin 3 a A -> lin1 d D -> lin1 (set1 norb bs f g a d) (fun e e' => set1 norb bs f g (A e e') (D e e')).
  Proof. intros La Ld s p q. unfold set1. destruct (index_of s bs); [|apply Ld]. destruct (_ && _); [now apply La|apply Ld]. Qed.
  Lemma lin_set2 bs f1 f2 f3 f4 a A d D : lin 5 a A -> lin2 d D -> lin2 (set2 norb bs f1 f2 f3 f4 a d) (fun e e' => set2 norb bs f1 f2 f3 f4 (A e e') (D e e')).
  Proof. intros La Ld b p q r u. unfold set2. destruct (index_of b bs); [|apply Ld]. destruct (_ && _); [now apply La|apply Ld]. Qed.
  Lemma lin_set1b s f g a A d D : lin 2 a A -> lin1 d D -> lin1 (set1b norb s f g a d) (fun e e' => set1b norb s f g (A e e') (D e e')).
  Proof. intros La Ld. apply (lin_set1 [s] f g (fun i => a (tl i)) (fun e e' i => A e e' (tl i))); [|exact Ld]. apply (lin_map 2 3 (@tl nat)); [|exact La]. intros [|x i] H; cbn in *; lia. Qed.
  Lemma lin_set2b b f1 f2 f3 f4 a A d D : lin 4 a A -> lin2 d D -> lin2 (set2b norb b f1 f2 f3 f4 a d) (fun e e' => set2b norb b f1 f2 f3 f4 (A e e') (D e e')).
  Proof. intros La Ld. apply (lin_set2 [b] f1 f2 f3 f4 (fun i => a (tl i)) (fun e e' i => A e e' (tl i))); [|exact Ld]. apply (lin_map 4 5 (@tl nat)); [|exact La]. intros [|x i] H; cbn in *; lia. Qed.
  Lemma lin_dens d1 D1 d2 D2 x : lin1 d1 D1 -> lin2 d2 D2 -> dens d1 d2 x = ssum (fun e e' => dens (D1 e e') (D2 e e') x).
  Proof. intros L1 L2. destruct x as [s p q|b p q r u]; cbn [dens]; [apply L1|apply L2]. Qed.
  Lemma lin_tdm2 s1 a A i j k d D : lin 5 a A -> lin2 d D -> lin2 (crunch_1c_tdm2 norb s1 a i j k d) (fun e e' => crunch_1c_tdm2 norb s1 (A e e') i j k (D e e')).
  Proof.
    intros La Ld. unfold crunch_1c_tdm2.
    apply lin_set2b; [apply lin_fmul, lin_tpose; [reflexivity|]; now apply lin_sub|]. apply lin_set2b; [apply lin_fmul, lin_tpose; [reflexivity|]; now apply lin_sub|].
    apply lin_set2; [now apply lin_tpose|]. now apply lin_set2.
  Qed.
End Lin.

(** Assignments to different fragments commute *)
Section Commute.
  Context {K : star_ring}.
  Variable norb : nat -> nat.
  Notation tdm2 := (@crunch_1c_tdm2 K norb).
  Definition touches (i j k : nat) (p q r u : orb) : bool :=
    let m f1 f2 f3 f4 := (fst p =? f1) && (fst q =? f2) && (fst r =? f3) && (fst u =? f4) in
    Datatypes.orb (Datatypes.orb (m i j k k) (m k k i j)) (Datatypes.orb (m i k k j) (m k j i k)).
  Lemma set2_not bs f1 f2 f3 f4 (a : @arr K) d b p q r u : (fst p =? f1) && (fst q =? f2) && (fst r =? f3) && (fst u =? f4) = false -> set2 norb bs f1 f2 f3 f4 a d b p q r u = d b p q r u.
  Proof.
    intros H. unfold set2. destruct (index_of b bs); [|reflexivity]. unfold ofrag. destruct (fst p =? f1); [|reflexivity]. destruct (fst q =? f2); [|cbn; now rewrite !andb_false_r].
    destruct (fst r =? f3); [|cbn; now rewrite !andb_false_r]. destruct (fst u =? f4); [discriminate|]. cbn. now rewrite !andb_false_r.
  Qed.
  Lemma set2_same bs f1 f2 f3 f4 (a : @arr K) d d' b p q r u : d b p q r u = d' b p q r u -> set2 norb bs f1 f2 f3 f4 a d b p q r u = set2 norb bs f1 f2 f3 f4 a d' b p q r u.
  Proof. intros H. unfold set2. destruct (index_of b bs); [|exact H]. destruct (_ && _); [reflexivity|exact H]. Qed.
  Lemma tdm2_not s1 a i j k d b p q r u : touches i j k p q r u = false -> tdm2 s1 a i j k d b p q r u = d b p q r u.
  Proof. intros H. unfold touches in H. cbn zeta in H. rewrite !orb_false_iff in H. destruct H as [[H1 H2] [H3 H4]]. unfold crunch_1c_tdm2, set2b. now rewrite !set2_not by assumption. Qed.
  Lemma tdm2_same s1 a i j k d d' b p q r u : d b p q r u = d' b p q r u -> tdm2 s1 a i j k d b p q r u = tdm2 s1 a i j k d' b p q r u.
  Proof. intros H. unfold crunch_1c_tdm2, set2b. now repeat apply set2_same. Qed.
  Lemma tdm2_comm s1 a a' i j d b p q r u : i <> j -> tdm2 s1 a i j i (tdm2 s1 a' i j j d) b p q r u = tdm2 s1 a' i j j (tdm2 s1 a i j i d) b p q r u.
  Proof.
    intros N. destruct (touches i j i p q r u) eqn:E1.
    - assert (E2 : touches i j j p q r u = false).
      { unfold touches in *. cbn zeta in *. destruct p as [fp p], q as [fq q], r as [fr r], u as [fu u]. cbn [fst] in *.
        destruct (Nat.eqb_spec fp i), (Nat.eqb_spec fp j), (Nat.eqb_spec fq i), (Nat.eqb_spec fq j), (Nat.eqb_spec fr i), (Nat.eqb_spec fr j), (Nat.eqb_spec fu i), (Nat.eqb_spec fu j); cbn in *; subst; auto; try discriminate; contradiction. }
      rewrite (tdm2_not s1 a' i j j _ _ _ _ _ _ E2). apply tdm2_same. now apply tdm2_not.
    - rewrite (tdm2_not s1 a i j i _ _ _ _ _ _ E1). apply tdm2_same. symmetry. now apply tdm2_not.
  Qed.
End Commute.
