(** Renumbering the orbitals of a Fock space: two numberings [a] and [b] of the same labels. *)
From Coq Require Import List NArith Arith Bool Lia Sorting.Permutation.
From Verif Require Import Base Star FockSpec FockFacts FockOps ProdFock.
Import ListNotations.
Local Open Scope nat_scope.

Lemma parity_perm {A} (f : A -> bool) l l' : Permutation l l' -> parity f l = parity f l'.
Proof. induction 1; rewrite ?parity_cons; try congruence. now rewrite <- !xorb_assoc, (xorb_comm (f y)). Qed.
Lemma parity_false {A} (f : A -> bool) l : (forall x, In x l -> f x = false) -> parity f l = false.
Proof. induction l as [|x l IH]; intros H; [reflexivity|]. rewrite parity_cons, H by now left. rewrite IH; [reflexivity|]. intros; apply H; now right. Qed.
Lemma parity_and {A} (c : bool) (f : A -> bool) l : parity (fun x => c && f x) l = c && parity f l.
Proof. destruct c; cbn [andb]; [reflexivity|]. apply parity_false. reflexivity. Qed.
Lemma parity_swap {A B} (f : A -> B -> bool) l l' : parity (fun x => parity (f x) l') l = parity (fun y => parity (fun x => f x y) l) l'.
Proof.
  induction l as [|x l IH]; [symmetry; now apply parity_false|]. rewrite parity_cons, IH, <- parity_xor. apply parity_ext. intros y _. now rewrite parity_cons.
Qed.
Lemma parity_flat_map {A B} (f : B -> bool) (g : A -> list B) l : parity f (flat_map g l) = parity (fun x => parity f (g x)) l.
Proof. induction l as [|x l IH]; [reflexivity|]. cbn [flat_map]. now rewrite parity_app, IH, parity_cons. Qed.
Lemma parity_single {A} (f : A -> bool) (dec : forall x y : A, {x = y} + {x <> y}) l x : NoDup l -> In x l -> parity (fun y => (if dec x y then true else false) && f y) l = f x.
Proof.
  induction 1 as [|y l Hy Hn IH]; intros I; [destruct I|]. rewrite parity_cons. destruct (dec x y) as [->|Ne].
  - cbn [andb]. rewrite parity_false; [apply xorb_false_r|]. intros z Hz. destruct (dec y z) as [->|]; [contradiction|reflexivity].
  - destruct I as [->|I]; [congruence|]. rewrite IH by exact I. now destruct (f x).
Qed.

Lemma map_inj_in {A B} (c : A -> B) l : NoDup (map c l) -> forall x y, In x l -> In y l -> c x = c y -> x = y.
Proof.
  induction l as [|z l IH]; intros N x y Hx Hy E; [destruct Hx|]. cbn in N. inversion N as [|? ? N1 N2]; subst.
  destruct Hx as [<-|Hx], Hy as [<-|Hy]; [reflexivity| | |now apply IH]; exfalso; apply N1; [rewrite E|rewrite <- E]; now apply in_map.
Qed.
Lemma map_nodup_in {A B} (c : A -> B) l : NoDup l -> (forall x y, In x l -> In y l -> c x = c y -> x = y) -> NoDup (map c l).
Proof.
  induction 1 as [|z l Hz Hn IH]; intros J; cbn; constructor.
  - intros I. apply in_map_iff in I as (y & E & Hy). apply Hz. rewrite <- (J y z); auto; [now right|now left].
  - apply IH. intros x y Hx Hy. apply J; now right.
Qed.
Section Perm.
Variable L : Type.
Variable dec : forall x y : L, {x = y} + {x <> y}.
Variable lab : list L.
Variables (a b : L -> nat) (m : nat).
Hypothesis Pa : Permutation (map a lab) (seq 0 m).
Hypothesis Pb : Permutation (map b lab) (seq 0 m).

Lemma nodup_of (c : L -> nat) : Permutation (map c lab) (seq 0 m) -> NoDup lab /\ (forall x y, In x lab -> In y lab -> c x = c y -> x = y) /\ (forall x, In x lab -> c x < m) /\ (forall q, q < m -> exists x, In x lab /\ c x = q).
Proof.
  intros P. assert (N : NoDup (map c lab)) by (apply (Permutation_NoDup (Permutation_sym P)), seq_NoDup). split; [now apply NoDup_map_inv in N|]. split; [|split].
  - exact (map_inj_in c lab N).
  - intros x Hx. apply (in_map c), (Permutation_in _ P), in_seq in Hx. lia.
  - intros q Hq. assert (I : In q (map c lab)) by (apply (Permutation_in _ (Permutation_sym P)), in_seq; lia). apply in_map_iff in I as (x & E & I). eauto.
Qed.
(** the determinant in numbering [a] whose occupied labels are those of [d] in numbering [b] *)
Definition conv (d : N) : N := fold_right (fun x e => if bt d (b x) then sb e (a x) else e) 0%N lab.
Lemma conv_gen d l q : bt (fold_right (fun x e => if bt d (b x) then sb e (a x) else e) 0%N l) q = existsb (fun x => (a x =? q) && bt d (b x)) l.
Proof.
  induction l as [|x l IH]; [apply N.bits_0|]. cbn [fold_right existsb]. rewrite <- IH. destruct (bt d (b x)); [rewrite bt_sb, andb_true_r|rewrite andb_false_r]; reflexivity.
Qed.
Lemma bt_conv d x : In x lab -> bt (conv d) (a x) = bt d (b x).
Proof.
  intros Hx. unfold conv. rewrite conv_gen. destruct (nodup_of a Pa) as (_ & J & _). destruct (bt d (b x)) eqn:E.
  - apply existsb_exists. exists x. now rewrite Nat.eqb_refl, E.
  - apply not_true_is_false. intros H. apply existsb_exists in H as (y & Hy & H). apply andb_true_iff in H as [H H']. apply Nat.eqb_eq in H. apply J in H; auto. subst y. congruence.
Qed.
Lemma conv_lt d : (conv d < 2 ^ N.of_nat m)%N.
Proof.
  apply lt_pow. intros q Hq. unfold conv. rewrite conv_gen. apply not_true_is_false. intros H. apply existsb_exists in H as (y & Hy & H).
  apply andb_true_iff in H as [H _]. apply Nat.eqb_eq in H. destruct (nodup_of a Pa) as (_ & _ & J & _). specialize (J y Hy). lia.
Qed.
Lemma conv_inj d e : (d < 2 ^ N.of_nat m)%N -> (e < 2 ^ N.of_nat m)%N -> conv d = conv e -> d = e.
Proof.
  intros Hd He E. apply bt_ext. intros q. destruct (le_lt_dec m q) as [Hq|Hq]; [now rewrite (bt_high d m), (bt_high e m)|].
  destruct (nodup_of b Pb) as (_ & _ & _ & J). destruct (J q Hq) as (x & Hx & <-). rewrite <- !(bt_conv _ x Hx). now rewrite E.
Qed.
Lemma eq_conv d e : (e < 2 ^ N.of_nat m)%N -> (forall x, In x lab -> bt e (a x) = bt d (b x)) -> e = conv d.
Proof.
  intros He H. apply bt_ext. intros q. destruct (le_lt_dec m q) as [Hq|Hq]; [now rewrite (bt_high e m), (bt_high (conv d) m) by auto using conv_lt|].
  destruct (nodup_of a Pa) as (_ & _ & _ & J). destruct (J q Hq) as (x & Hx & <-). rewrite bt_conv by exact Hx. now apply H.
Qed.
Lemma conv_sb d x : In x lab -> conv (sb d (b x)) = sb (conv d) (a x).
Proof.
  intros Hx. symmetry. apply eq_conv.
  - apply sb_lt; [apply conv_lt|]. now apply (nodup_of a Pa).
  - intros y Hy. rewrite !bt_sb, bt_conv by exact Hy. f_equal. destruct (Nat.eqb_spec (b x) (b y)) as [E|E].
    + apply (nodup_of b Pb) in E; auto. subst. apply Nat.eqb_refl.
    + apply Nat.eqb_neq. intros E'. apply E. f_equal. now apply (nodup_of a Pa).
Qed.
Lemma conv_cb d x : In x lab -> conv (cb d (b x)) = cb (conv d) (a x).
Proof.
  intros Hx. symmetry. apply eq_conv.
  - apply cb_lt, conv_lt.
  - intros y Hy. rewrite !bt_cb, bt_conv by exact Hy. f_equal. f_equal. destruct (Nat.eqb_spec (b x) (b y)) as [E|E].
    + apply (nodup_of b Pb) in E; auto. subst. apply Nat.eqb_refl.
    + apply Nat.eqb_neq. intros E'. apply E. f_equal. now apply (nodup_of a Pa).
Qed.
Lemma conv_perm : Permutation (map conv (dets m)) (dets m).
Proof.
  apply NoDup_Permutation_bis.
  - apply map_nodup_in; [apply NoDup_dets|]. intros x y Hx Hy E. apply in_dets in Hx, Hy. now apply conv_inj.
  - now rewrite map_length.
  - intros e He. apply in_map_iff in He as (d & <- & _). apply in_dets, conv_lt.
Qed.

(** parity of the number of pairs of electrons whose order differs in the two numberings *)
Definition inverted (x y : L) : bool := (a x <? a y) && (b y <? b x).
Definition inv (d : N) : bool := parity (fun x => bt d (b x) && parity (fun y => inverted x y && bt d (b y)) lab) lab.
Definition later (c : L -> nat) (d : N) (x : L) : bool := parity (fun y => (c x <? c y) && bt d (b y)) lab.
Lemma above_filter d p : above m d p = parity (fun q => (p <? q) && bt d q) (seq 0 m).
Proof.
  unfold above. destruct (le_lt_dec m p) as [H|H].
  - replace (m - S p) with 0 by lia. symmetry. apply parity_false. intros q Hq. apply in_seq in Hq. destruct (Nat.ltb_spec p q); [lia|reflexivity].
  - replace m with (S p + (m - S p)) at 2 by lia. rewrite seq_app, parity_app. rewrite (parity_false _ (seq 0 (S p))).
    + rewrite xorb_false_l. cbn [Nat.add]. apply parity_ext. intros q Hq. apply in_seq in Hq. destruct (Nat.ltb_spec p q); [reflexivity|lia].
    + intros q Hq. apply in_seq in Hq. destruct (Nat.ltb_spec p q); [lia|reflexivity].
Qed.
Lemma above_b d x : above m d (b x) = later b d x.
Proof. rewrite above_filter, <- (parity_perm _ _ _ Pb), parity_map. reflexivity. Qed.
Lemma above_a d x : above m (conv d) (a x) = later a d x.
Proof. rewrite above_filter, <- (parity_perm _ _ _ Pa), parity_map. apply parity_ext. intros y Hy. now rewrite bt_conv. Qed.
(** changing the occupation of one label *)
Lemma inv_toggle d e x : In x lab -> (forall y, In y lab -> bt e (b y) = xorb (if dec x y then true else false) (bt d (b y))) ->
  inv e = xorb (inv d) (xorb (later a d x) (later b d x)).
Proof.
  intros Hx H. destruct (nodup_of a Pa) as (N & Ja & _). destruct (nodup_of b Pb) as (_ & Jb & _).
  assert (I0 : inverted x x = false) by (unfold inverted; rewrite Nat.ltb_irrefl; reflexivity).
  assert (E1 : inv e = xorb (parity (fun y => inverted x y && bt e (b y)) lab) (parity (fun z => bt d (b z) && parity (fun y => inverted z y && bt e (b y)) lab) lab)).
  { unfold inv. rewrite <- (parity_single (fun z => parity (fun y => inverted z y && bt e (b y)) lab) dec lab x N Hx). rewrite <- parity_xor.
    apply parity_ext. intros z Hz. rewrite (H z Hz). destruct (if dec x z then true else false), (bt d (b z)), (parity _ lab); reflexivity. }
  assert (E2 : forall z, In z lab -> parity (fun y => inverted z y && bt e (b y)) lab = xorb (inverted z x) (parity (fun y => inverted z y && bt d (b y)) lab)).
  { intros z Hz. rewrite <- (parity_single (fun y => inverted z y) dec lab x N Hx). rewrite <- parity_xor. apply parity_ext. intros y Hy. rewrite (H y Hy).
    destruct (if dec x y then true else false), (inverted z y), (bt d (b y)); reflexivity. }
  rewrite E1, (E2 x Hx), I0, xorb_false_l.
  assert (E3 : parity (fun z => bt d (b z) && parity (fun y => inverted z y && bt e (b y)) lab) lab = xorb (parity (fun z => inverted z x && bt d (b z)) lab) (inv d)).
  { unfold inv. rewrite <- parity_xor. apply parity_ext. intros z Hz. rewrite (E2 z Hz). destruct (bt d (b z)), (inverted z x), (parity _ lab); reflexivity. }
  rewrite E3. rewrite <- xorb_assoc. rewrite (xorb_comm _ (inv d)). f_equal. unfold later. rewrite <- !parity_xor. apply parity_ext. intros y Hy.
  destruct (dec x y) as [->|Ne]; [rewrite !Nat.ltb_irrefl, I0; reflexivity|].
  assert (a x <> a y) by (intros E; apply Ne; now apply Ja). assert (b x <> b y) by (intros E; apply Ne; now apply Jb). unfold inverted.
  destruct (Nat.ltb_spec (a x) (a y)), (Nat.ltb_spec (b x) (b y)), (Nat.ltb_spec (a y) (a x)), (Nat.ltb_spec (b y) (b x)); try lia; now destruct (bt d (b y)).
Qed.

Variable K : star_ring.
Add Ring Kr : (sring K).
Local Open Scope star_scope.
Definition renum (w : vec K) : vec K := fun d => sg K (inv d) (w (conv d)).
Lemma sg_xor3 p q r s (z : K) : xorb p q = xorb r s -> sg K p (sg K q z) = sg K r (sg K s z).
Proof. intros E. now rewrite !sg_sg, E. Qed.
Lemma renum_fld k x (w : vec K) d : In x lab -> (d < 2 ^ N.of_nat m)%N -> renum (fld K k m (a x) w) d = fld K k m (b x) (renum w) d.
Proof.
  intros Hx Hd. unfold renum, fld. destruct (nodup_of b Pb) as (_ & Jb & _).
  destruct k; unfold cre, ann; rewrite bt_conv by exact Hx; destruct (bt d (b x)) eqn:B; rewrite ?sg_0; try reflexivity.
  - rewrite above_a, above_b, <- conv_cb by exact Hx. apply sg_xor3. rewrite (inv_toggle d (cb d (b x)) x Hx).
    + destruct (inv d), (later a d x), (later b d x); reflexivity.
    + intros y Hy. rewrite bt_cb. destruct (dec x y) as [->|Ne]; [now rewrite Nat.eqb_refl, B|]. destruct (Nat.eqb_spec (b x) (b y)) as [E|E]; [apply Jb in E; auto; contradiction|]. now destruct (bt d (b y)).
  - rewrite above_a, above_b, <- conv_sb by exact Hx. apply sg_xor3. rewrite (inv_toggle d (sb d (b x)) x Hx).
    + destruct (inv d), (later a d x), (later b d x); reflexivity.
    + intros y Hy. rewrite bt_sb. destruct (dec x y) as [->|Ne]; [now rewrite Nat.eqb_refl, B|]. destruct (Nat.eqb_spec (b x) (b y)) as [E|E]; [apply Jb in E; auto; contradiction|]. now destruct (bt d (b y)).
Qed.
Lemma renum_inner (u v : vec K) : inner K m (renum u) (renum v) = inner K m u v.
Proof.
  unfold inner. rewrite <- (bsum_perm K _ _ (fun d => sconj (u d) * v d) conv_perm), bsum_map. apply bsum_ext. intros d _. unfold renum. rewrite sg_conj, sg_mul, mul_sg, sg_inv. reflexivity.
Qed.
End Perm.
