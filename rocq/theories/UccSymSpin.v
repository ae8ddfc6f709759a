(** What number- and spin-conserving generators conserve. *)
From Coq Require Import List NArith ZArith Arith Bool Lia Ring Sorting.Permutation.
From Verif Require Import Base Star FockSpec FockFacts FsuccModel FsuccFacts FsuccProofs FockOps FsuccHop PropFsucc
  UccModel UccProofs UccInit SpinRot UccSymModel UccSymFacts.
Import ListNotations.

Section S.
Variable K : star_ring.
Add Ring Kring : (sring K).
Local Open Scope star_scope.
Notation vec := (vec K). Notation veq := (veq K).
Notation cre := (cre K). Notation ann := (ann K). Notation creL := (creL K). Notation annL := (annL K). Notation exop := (exop K).
Variable n : nat.
Notation m := (2 * n)%nat.

Lemma bsum_cons {A} (x : A) l (f : A -> K) : bsum (x :: l) f = f x + bsum l f. Proof. reflexivity. Qed.
Section Num.
Variable lo : nat.
Definition here (p : nat) : bool := (lo <=? p)%nat && (p <? lo + n)%nat.
Definition one (b : bool) : K := if b then s1 else s0.
Definition kn (l : list nat) : K := bsum l (fun p => one (here p)).
Notation cnt := (cnt K n lo).
Lemma one_bit (b : bool) : (if b then s1 else s0 : K) = one b. Proof. reflexivity. Qed.
Lemma cnt_gen (f g : nat -> bool) p k : forall b, (forall q, q <> p -> f q = g q) -> f p = true -> g p = false ->
  bsum (K := K) (seq b k) (fun q => one (f q)) = bsum (seq b k) (fun q => one (g q)) + one ((b <=? p)%nat && (p <? b + k)%nat).
Proof.
  induction k as [|k IH]; intros b H F G; cbn [seq].
  - assert (E : (b <=? p)%nat && (p <? b + 0)%nat = false) by (apply andb_false_iff; destruct (Nat.leb_spec b p); [right; apply Nat.ltb_ge; lia|now left]).
    rewrite E. cbn. ring.
  - rewrite !bsum_cons. rewrite (IH (S b) H F G). destruct (Nat.eq_dec b p) as [->|N].
    + rewrite F, G. assert (E : (S p <=? p)%nat = false) by (apply Nat.leb_gt; lia). rewrite E. cbn [andb].
      assert (E2 : (p <=? p)%nat && (p <? p + S k)%nat = true) by (apply andb_true_iff; split; [apply Nat.leb_le|apply Nat.ltb_lt]; lia). rewrite E2. cbn [one]. ring.
    + rewrite (H b N). assert (E : (S b <=? p)%nat && (p <? S b + k)%nat = (b <=? p)%nat && (p <? b + S k)%nat).
      { replace (S b + k)%nat with (b + S k)%nat by lia. f_equal. destruct (Nat.leb_spec (S b) p), (Nat.leb_spec b p); try reflexivity; lia. }
      rewrite E. ring.
Qed.
Lemma cnt_cb e p : bt e p = true -> cnt e = cnt (cb e p) + one (here p).
Proof.
  intros B. unfold FsuccHop.cnt, here. apply cnt_gen; [|exact B|].
  - intros q N. rewrite bt_cb. destruct (Nat.eqb_spec p q); [congruence|]. cbn. now rewrite ?andb_true_r.
  - rewrite bt_cb, Nat.eqb_refl. cbn. now rewrite ?andb_false_r.
Qed.
Lemma cnt_sb e p : bt e p = false -> cnt (sb e p) = cnt e + one (here p).
Proof.
  intros B. unfold FsuccHop.cnt, here. apply cnt_gen; [| |exact B].
  - intros q N. rewrite bt_sb. destruct (Nat.eqb_spec p q); [congruence|]. cbn. now rewrite ?orb_false_r.
  - rewrite bt_sb, Nat.eqb_refl. cbn. now rewrite ?orb_true_r.
Qed.
Notation num := (num K n lo).
Lemma num_cre p (v : vec) e : num (cre m p v) e = cre m p (num v) e + one (here p) * cre m p v e.
Proof.
  rewrite num_cnt. unfold FockSpec.cre. destruct (bt e p) eqn:B; [|ring]. rewrite num_cnt, (cnt_cb e p B). destruct (above m e p); cbn [sg]; ring.
Qed.
Lemma num_ann p (v : vec) e : num (ann m p v) e = ann m p (num v) e - one (here p) * ann m p v e.
Proof.
  rewrite num_cnt. unfold FockSpec.ann. destruct (bt e p) eqn:B; [ring|]. rewrite num_cnt, (cnt_sb e p B). destruct (above m e p); cbn [sg]; ring.
Qed.
Lemma num_creL l : forall (v : vec) e, num (creL m l v) e = creL m l (num v) e + kn l * creL m l v e.
Proof.
  induction l as [|p l IH]; intros v e; cbn [FockSpec.creL]; [unfold kn; cbn; ring|]. rewrite num_cre.
  rewrite (cre_v K m p _ (fun d => s1 * creL m l (num v) d + kn l * creL m l v d) e); [|intros d; rewrite IH; ring].
  rewrite cre_l. unfold kn. rewrite bsum_cons. ring.
Qed.
Lemma annL_l l : forall (x y : K) (u v : vec) e, annL m l (fun d => x * u d + y * v d) e = x * annL m l u e + y * annL m l v e.
Proof.
  induction l as [|p l IH]; intros x y u v e; cbn [FockSpec.annL]; [reflexivity|]. rewrite <- IH.
  assert (Q : forall l (u v : vec) e, (forall d, u d = v d) -> annL m l u e = annL m l v e).
  { clear. induction l as [|p l IH]; intros u v e H; cbn [FockSpec.annL]; [apply H|]. apply IH. intros d. now apply ann_v. }
  apply Q. intros d. apply ann_l.
Qed.
Lemma annL_v l : forall (u v : vec) e, (forall d, u d = v d) -> annL m l u e = annL m l v e.
Proof. induction l as [|p l IH]; intros u v e H; cbn [FockSpec.annL]; [apply H|]. apply IH. intros d. now apply ann_v. Qed.
Lemma creL_v l : forall (u v : vec) e, (forall d, u d = v d) -> creL m l u e = creL m l v e.
Proof. induction l as [|p l IH]; intros u v e H; cbn [FockSpec.creL]; [apply H|]. apply cre_v. intros d. now apply IH. Qed.
Lemma creL_l l : forall (x y : K) (u v : vec) e, creL m l (fun d => x * u d + y * v d) e = x * creL m l u e + y * creL m l v e.
Proof.
  induction l as [|p l IH]; intros x y u v e; cbn [FockSpec.creL]; [reflexivity|]. rewrite <- cre_l. apply cre_v. intros d. apply IH.
Qed.
Lemma num_annL l : forall (v : vec) e, num (annL m l v) e = annL m l (num v) e - kn l * annL m l v e.
Proof.
  induction l as [|p l IH]; intros v e; cbn [FockSpec.annL]; [unfold kn; cbn; ring|]. rewrite IH.
  rewrite (annL_v l _ (fun d => s1 * ann m p (num v) d + - one (here p) * ann m p v d) e); [|intros d; rewrite num_ann; ring].
  rewrite annL_l. unfold kn. rewrite bsum_cons. ring.
Qed.
Lemma num_exop a i (v : vec) e : kn a = kn i -> num (exop m a i v) e = exop m a i (num v) e.
Proof.
  intros E. unfold FockSpec.exop. rewrite num_creL.
  rewrite (creL_v a _ (fun d => s1 * annL m i (num v) d + - kn i * annL m i v d) e); [|intros d; rewrite num_annL; ring].
  rewrite creL_l, E. ring.
Qed.
Lemma num_gen a i (v : vec) e : kn a = kn i -> num (FockSpec.gen K m a i v) e = FockSpec.gen K m a i (num v) e.
Proof.
  intros E. unfold FockSpec.gen at 2, vsub. rewrite <- !num_exop by congruence. rewrite !num_cnt. unfold FockSpec.gen, vsub. ring.
Qed.
Lemma gen_v a i (u v : vec) e : (forall d, u d = v d) -> FockSpec.gen K m a i u e = FockSpec.gen K m a i v e.
Proof. intros H. unfold FockSpec.gen, vsub, FockSpec.exop. f_equal; apply creL_v; intros d; now apply annL_v. Qed.
Lemma num_rot a i (c s : K) (v : vec) e : kn a = kn i -> num (rot K m a i c s v) e = rot K m a i c s (num v) e.
Proof.
  intros E. rewrite num_cnt. unfold FockSpec.rot. rewrite <- num_gen by exact E.
  rewrite (gen_v a i (FockSpec.gen K m a i (num v)) (num (FockSpec.gen K m a i v)) e); [|intros d; symmetry; now apply num_gen].
  rewrite <- num_gen by exact E. rewrite !num_cnt. ring.
Qed.
End Num.

Fixpoint ofn (k : nat) : K := match k with 0%nat => s0 | S k => s1 + ofn k end.
Lemma ofn_add j k : ofn (j + k) = ofn j + ofn k.
Proof. induction j as [|j IH]; cbn [ofn Nat.add]; [ring|]. rewrite IH. ring. Qed.
Lemma kn_filter (f : nat -> bool) l : bsum (K := K) l (fun p => one (f p)) = ofn (length (filter f l)).
Proof. induction l as [|x l IH]; [reflexivity|]. rewrite bsum_cons, IH. cbn [filter]. destruct (f x); cbn [one length ofn]; ring. Qed.
Lemma kn_valid lo g : lo = 0%nat \/ lo = n -> valid_gen n g -> kn lo (fst g) = kn lo (snd g).
Proof.
  intros L ((B1 & B2 & _) & Len & Bt). unfold kn. rewrite !kn_filter. f_equal.
  assert (Up : forall l, below m l -> length (filter (here n) l) = beta n l).
  { unfold beta, below. induction 1 as [|x l Hx Hl IH]; [reflexivity|]. cbn [filter]. unfold here at 1.
    assert (E : (x <? n + n)%nat = true) by (apply Nat.ltb_lt; lia). rewrite E, andb_true_r. destruct (n <=? x)%nat; cbn [length]; congruence. }
  assert (Lw : forall l, below m l -> (length (filter (here 0) l) + beta n l)%nat = length l).
  { unfold beta, below. induction 1 as [|x l Hx Hl IH]; [reflexivity|]. cbn [filter]. unfold here at 1. cbn [Nat.leb andb Nat.add].
    destruct (Nat.ltb_spec x n), (Nat.leb_spec n x); cbn [length]; lia. }
  destruct L as [->| ->].
  - pose proof (Lw _ B1). pose proof (Lw _ B2). lia.
  - now rewrite !Up.
Qed.

(** ** products *)
Variable T : Type.
Variables cosT sinT : T -> K.
Hypothesis pyth : forall t, cosT t * cosT t + sinT t * sinT t = s1.
Notation gen := (list nat * list nat)%type.
Notation prod := (prod K T cosT sinT m).
Notation fac := (fac K T cosT sinT m).
Lemma prod_num lo tr l : (lo = 0%nat \/ lo = n) -> Forall (fun x : gen * T => valid_gen n (fst x)) l -> forall v e,
  num K n lo (prod tr l v) e = prod tr l (num K n lo v) e.
Proof.
  intros L H. induction H as [|x l Hx Hl IH]; intros v e; [reflexivity|]. change (prod tr (x :: l)) with (fun v => prod tr l (fac tr x v)). cbv beta.
  rewrite IH. clear IH Hl. revert e. revert tr.
  assert (Q : forall tr l (u v : vec) e, (forall d, u d = v d) -> prod tr l u e = prod tr l v e).
  { clear. intros tr. induction l as [|x l IH]; intros u v e H; [apply H|]. change (prod tr (x :: l)) with (fun v => prod tr l (fac tr x v)). cbv beta. apply IH. intros d.
    unfold UccProofs.fac, rot. assert (R : forall u v d, (forall d, u d = v d) -> FockSpec.gen K m (fst (fst x)) (snd (fst x)) u d = FockSpec.gen K m (fst (fst x)) (snd (fst x)) v d) by (intros; now apply gen_v).
    rewrite H, (R u v d H). rewrite (R _ _ d (fun d => R u v d H)). reflexivity. }
  intros tr e. apply Q. intros d. unfold UccProofs.fac. apply num_rot. now apply kn_valid.
Qed.

(** pairs of generators with opposite spins and the same amplitude *)
Fixpoint pairs (l : list (nat * nat * T)) : list (gen * T) :=
  match l with [] => [] | (a, i, t) :: l => (([a], [i]), t) :: (([(a + n)%nat], [(i + n)%nat]), t) :: pairs l end.
Definition fits (x : nat * nat * T) : Prop := (fst (fst x) < n)%nat /\ (snd (fst x) < n)%nat /\ fst (fst x) <> snd (fst x).
Lemma prod_pairs l : Forall fits l -> forall o o' v e, spin n o -> spin n o' -> trans K n o o' (prod false (pairs l) v) e = prod false (pairs l) (trans K n o o' v) e.
Proof.
  intros H. induction H as [|[[a i] t] l (Ha & Hi & N) Hl IH]; intros o o' v e So So'; [reflexivity|]. cbn [fst snd] in *. cbn [pairs].
  change (prod false ((([a], [i]), t) :: (([(a + n)%nat], [(i + n)%nat]), t) :: pairs l)) with (fun v => prod false (pairs l) (both K n a i (cosT t) (sinT t) v)). cbv beta.
  rewrite IH by assumption.
  assert (Q : forall l (u v : vec) e, (forall d, u d = v d) -> prod false (pairs l) u e = prod false (pairs l) v e).
  { clear. induction l as [|[[a i] t] l IH]; intros u v e H; [apply H|]. cbn [pairs].
    change (prod false ((([a], [i]), t) :: (([(a + n)%nat], [(i + n)%nat]), t) :: pairs l)) with (fun v => prod false (pairs l) (both K n a i (cosT t) (sinT t) v)). cbv beta.
    apply IH. intros d. now apply both_v. }
  apply Q. intros d. symmetry. now apply both_trans.
Qed.
End S.
