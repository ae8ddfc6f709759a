From Coq Require Import List Arith Bool Lia Ring.
From Verif Require Import BaseFacts Star ProdModel.
Import ListNotations.
Local Open Scope star_scope.

Section F.
Context {K : star_ring}.
Add Ring Kring : (sring K).
Notation pf := (pfrag K).
Notation block := (nat * pf)%type.

(** ** Block structure *)
Lemma fold_pt {T A V} (ev : T -> V) (step : T -> A -> T) (c : A -> bool) (v : A -> V) :
  (forall t b, ev (step t b) = if c b then v b else ev t) ->
  forall l t, ev (fold_left step l t) = match find c (rev l) with Some b => v b | None => ev t end.
Proof.
  intros H l t. induction l as [|b l IH] using rev_ind; auto.
  rewrite fold_left_app. cbn [fold_left]. rewrite H, rev_app_distr. cbn. destruct (c b); auto.
Qed.

Lemma offs_length (fr : list pf) : forall k, length (offs k fr) = length fr.
Proof. induction fr; intros; cbn; auto. Qed.
Lemma blocks_length (fr : list pf) : length (blocks fr) = length fr.
Proof. unfold blocks. rewrite combine_length, offs_length. lia. Qed.
Lemma blocks_nth (fr : list pf) f F : nth_error fr f = Some F ->
  nth_error (blocks fr) f = Some (list_sum (map p_no (firstn f fr)), F).
Proof.
  unfold blocks. enough (G : forall k f, nth_error fr f = Some F ->
    nth_error (combine (offs k fr) fr) f = Some (k + list_sum (map p_no (firstn f fr)), F)%nat) by (intros; apply (G O); auto).
  clear f. induction fr as [|F0 fr IH]; intros k [|f] H; cbn in *; try discriminate.
  - inversion H; subst. rewrite Nat.add_0_r; auto.
  - rewrite (IH _ _ H). f_equal. f_equal. change (fold_right Nat.add 0%nat) with list_sum. lia.
Qed.
Lemma inb_iff (b : block) p : inb b p = true <-> In p (blk b).
Proof. unfold inb, blk. rewrite in_seq, andb_true_iff, Nat.leb_le, Nat.ltb_lt. lia. Qed.

Lemma sum_firstn_le (fr : list pf) f g F : (f < g)%nat -> nth_error fr f = Some F ->
  (list_sum (map p_no (firstn f fr)) + p_no F <= list_sum (map p_no (firstn g fr)))%nat.
Proof.
  revert f g. induction fr as [|F0 fr IH]; intros f g H Hf; [destruct f; discriminate|].
  destruct g as [|g]; [lia|]. destruct f as [|f]; cbn in *.
  - inversion Hf; subst. lia.
  - change (fold_right Nat.add 0%nat) with list_sum. specialize (IH f g ltac:(lia) Hf). lia.
Qed.
Lemma blocks_disj (fr : list pf) f g b c p : nth_error (blocks fr) f = Some b -> nth_error (blocks fr) g = Some c ->
  inb b p = true -> inb c p = true -> f = g.
Proof.
  intros Hb Hc Ib Ic.
  assert (Ef : exists F, nth_error fr f = Some F).
  { destruct (nth_error fr f) eqn:E; eauto. apply nth_error_None in E. rewrite <- blocks_length in E. apply nth_error_None in E. congruence. }
  assert (Eg : exists F, nth_error fr g = Some F).
  { destruct (nth_error fr g) eqn:E; eauto. apply nth_error_None in E. rewrite <- blocks_length in E. apply nth_error_None in E. congruence. }
  destruct Ef as [F Ef], Eg as [G Eg]. rewrite (blocks_nth _ _ _ Ef) in Hb. rewrite (blocks_nth _ _ _ Eg) in Hc.
  inversion Hb; inversion Hc; subst. unfold inb in *. cbn [fst snd] in *.
  apply andb_true_iff in Ib as [I1 I2]. apply andb_true_iff in Ic as [I3 I4].
  apply Nat.leb_le in I1, I3. apply Nat.ltb_lt in I2, I4.
  destruct (lt_eq_lt_dec f g) as [[H|H]|H]; auto.
  - pose proof (sum_firstn_le fr f g F H Ef). lia.
  - pose proof (sum_firstn_le fr g f G H Eg). lia.
Qed.
Lemma all_orbs (fr : list pf) : seq 0 (norb fr) = flat_map blk (blocks fr).
Proof.
  unfold norb, blocks. generalize 0%nat as k. induction fr as [|F fr IH]; intros k; auto.
  cbn [map offs combine flat_map]. change (list_sum (p_no F :: map p_no fr)) with (p_no F + list_sum (map p_no fr))%nat.
  rewrite seq_app. f_equal. apply IH.
Qed.

(** ** The density matrices in block form *)
Definition Db (b : block) (s : bool) : T2 K := fun p q => p_d1 (snd b) s (p - fst b) (q - fst b).
Definition D2b (b : block) : T4 K := fun p q r s => p_d2 (snd b) (p - fst b) (q - fst b) (r - fst b) (s - fst b).

Section Frags.
Variable fr : list pf.
Notation B := (blocks fr).
Implicit Types (f g h k : nat) (b c : block).

Lemma dm1_at f g b c s p q : nth_error B f = Some b -> nth_error B g = Some c ->
  In p (blk b) -> In q (blk c) -> make_rdm1s fr s p q = if (f =? g)%nat then Db b s p q else s0.
Proof.
  intros Hb Hc Hp Hq. apply inb_iff in Hp, Hq. unfold make_rdm1s.
  rewrite (fold_pt (fun t : T2 K => t p q) (write1 s) (fun b => inb b p && inb b q) (fun b => Db b s p q)) by reflexivity.
  destruct (find _ _) as [b'|] eqn:E.
  - apply find_some in E as [I C]. apply andb_true_iff in C as [C1 C2].
    apply in_rev in I. apply In_nth_error in I as [f' I].
    assert (f' = f) by (apply (blocks_disj fr f' f b' b p); auto).
    assert (f' = g) by (apply (blocks_disj fr f' g b' c q); auto). subst f' g. rewrite Nat.eqb_refl. congruence.
  - destruct (Nat.eqb_spec f g); auto. subst g. assert (b = c) by congruence. subst c.
    apply (find_none _ _) with (x := b) in E; [rewrite Hp, Hq in E; discriminate|].
    apply -> in_rev. eapply nth_error_In; eauto.
Qed.

Lemma combinations2_in {A} (l : list A) x y : In (x, y) (combinations2 l) <->
  exists i j, (i < j)%nat /\ nth_error l i = Some x /\ nth_error l j = Some y.
Proof.
  induction l as [|a l IH]; cbn.
  - split; [tauto|]. intros (i & j & _ & H & _). destruct i; discriminate.
  - rewrite in_app_iff, in_map_iff, IH. split.
    + intros [(z & E & I)|(i & j & H & H1 & H2)].
      * inversion E; subst. apply In_nth_error in I as [j I]. exists 0%nat, (S j). repeat split; auto. lia.
      * exists (S i), (S j). repeat split; auto. lia.
    + intros ([|i] & [|j] & H & H1 & H2); cbn in *; try lia.
      * left. exists y. inversion H1; subst. split; auto. eapply nth_error_In; eauto.
      * right. exists i, j. repeat split; auto. lia.
Qed.

Section At.
Variables (f g h k : nat) (bf bg bh bk : block) (p q r s : nat).
Hypotheses (Hf : nth_error B f = Some bf) (Hg : nth_error B g = Some bg) (Hh : nth_error B h = Some bh) (Hk : nth_error B k = Some bk)
  (Hp : inb bf p = true) (Hq : inb bg q = true) (Hr : inb bh r = true) (Hs : inb bk s = true).

Lemma is_blk i b x bx j : nth_error B i = Some b -> nth_error B j = Some bx -> inb bx x = true ->
  inb b x = (i =? j)%nat.
Proof.
  intros Hi Hj I. destruct (Nat.eqb_spec i j).
  - subst. assert (b = bx) by congruence. subst; auto.
  - destruct (inb b x) eqn:E; auto. destruct n. eapply blocks_disj; eauto.
Qed.

(** what a pair of fragments writes at this element *)
Definition hit (ij : nat * nat) : bool :=
  let (i, j) := ij in
  ((i =? f) && (i =? g) && (j =? h) && (j =? k)) || ((j =? f) && (j =? g) && (i =? h) && (i =? k)) ||
  ((i =? f) && (j =? g) && (j =? h) && (i =? k)) || ((j =? f) && (i =? g) && (i =? h) && (j =? k)).

Definition dm2_val : K :=
  if (f =? g) && (h =? k) then
    (if f =? h then D2b bf p q r s
     else (Db bf false p q + Db bf true p q) * (Db bh false r s + Db bh true r s))
  else if (f =? k) && (g =? h) then
    - (Db bf false p s * Db bg false q r + Db bf true p s * Db bg true q r)
  else s0.

Lemma dm2_at_ : make_rdm2 fr p q r s = dm2_val.
Proof.
  unfold make_rdm2. set (da := make_rdm1s fr false). set (db := make_rdm1s fr true). set (t0 := fold_left write2 B _).
  assert (T0 : t0 p q r s = if (f =? g) && (h =? k) && (f =? h) then D2b bf p q r s else s0).
  { unfold t0. rewrite (fold_pt (fun t : T4 K => t p q r s) write2 (fun b => inb b p && inb b q && inb b r && inb b s) (fun b => D2b b p q r s)) by reflexivity.
    destruct (find _ _) as [b'|] eqn:E.
    - apply find_some in E as [I C]. apply in_rev in I. apply In_nth_error in I as [f' I].
      rewrite (is_blk f' b' p bf f), (is_blk f' b' q bg g), (is_blk f' b' r bh h), (is_blk f' b' s bk k) in C by auto.
      rewrite !andb_true_iff, !Nat.eqb_eq in C. destruct C as [[[C1 C2] C3] C4]. subst. rewrite !Nat.eqb_refl. cbn.
      congruence.
    - destruct ((f =? g) && (h =? k) && (f =? h)) eqn:Q; auto.
      rewrite !andb_true_iff, !Nat.eqb_eq in Q. destruct Q as [[-> ->] ->].
      apply (find_none _ _) with (x := bh) in E; [|apply -> in_rev; eapply nth_error_In; eauto].
      assert (bf = bh) by congruence. assert (bg = bh) by congruence. assert (bk = bh) by congruence. subst.
      rewrite Hp, Hq, Hr, Hs in E. discriminate. }
  set (cnd := fun bc : block * block => let (b, c) := bc in
     (inb c p && inb b q && inb b r && inb c s) || (inb b p && inb c q && inb c r && inb b s) ||
     (inb c p && inb c q && inb b r && inb b s) || (inb b p && inb b q && inb c r && inb c s)).
  set (val := fun bc : block * block => let (b, c) := bc in
     if inb c p && inb b q && inb b r && inb c s then - (da q r * da p s + db q r * db p s)
     else if inb b p && inb c q && inb c r && inb b s then - (da p s * da q r + db p s * db q r)
     else if inb c p && inb c q && inb b r && inb b s then (da r s + db r s) * (da p q + db p q)
     else (da p q + db p q) * (da r s + db r s)).
  rewrite (fold_pt (fun t : T4 K => t p q r s) (write_pair da db) cnd val).
  2:{ intros t [b c]. unfold write_pair, put, cnd, val. cbn [fst snd].
      destruct (inb c p && inb b q && inb b r && inb c s); cbn [orb]; auto.
      destruct (inb b p && inb c q && inb c r && inb b s); cbn [orb]; auto.
      destruct (inb c p && inb c q && inb b r && inb b s); cbn [orb]; auto. }
  assert (DA : forall sp i j x y bx by_, nth_error B i = Some bx -> nth_error B j = Some by_ -> inb bx x = true -> inb by_ y = true ->
     make_rdm1s fr sp x y = if (i =? j)%nat then Db bx sp x y else s0).
  { intros. eapply dm1_at; eauto; apply inb_iff; auto. }
  destruct (find _ _) as [[b c]|] eqn:E.
  - apply find_some in E as [I C]. apply in_rev in I. apply combinations2_in in I as (i & j & Hij & Hb & Hc).
    unfold cnd, val in *.
    rewrite (is_blk i b p bf f), (is_blk i b q bg g), (is_blk i b r bh h), (is_blk i b s bk k) in * by auto.
    rewrite (is_blk j c p bf f), (is_blk j c q bg g), (is_blk j c r bh h), (is_blk j c s bk k) in * by auto.
    unfold dm2_val.
    rewrite !orb_true_iff, !andb_true_iff, !Nat.eqb_eq in C.
    destruct C as [[[C|C]|C]|C]; destruct C as [[[C1 C2] C3] C4]; subst;
      repeat match goal with |- context [(?x =? ?y)%nat] => destruct (Nat.eqb_spec x y); try lia end; cbn [andb].
    + unfold da, db. rewrite (DA _ h h q r bg bh), (DA _ h h q r bg bh), (DA _ k k p s bf bk), (DA _ k k p s bf bk), !Nat.eqb_refl by auto.
      assert (bf = c) by congruence; assert (bg = b) by congruence. subst. ring.
    + unfold da, db. rewrite (DA _ h h q r bg bh), (DA _ h h q r bg bh), (DA _ k k p s bf bk), (DA _ k k p s bf bk), !Nat.eqb_refl by auto.
      ring.
    + unfold da, db. rewrite (DA _ k k r s bh bk), (DA _ k k r s bh bk), (DA _ g g p q bf bg), (DA _ g g p q bf bg), !Nat.eqb_refl by auto.
      ring.
    + unfold da, db. rewrite (DA _ k k r s bh bk), (DA _ k k r s bh bk), (DA _ g g p q bf bg), (DA _ g g p q bf bg), !Nat.eqb_refl by auto.
      ring.
  - (* no pair hits *)
    assert (N : forall i j b c, (i < j)%nat -> nth_error B i = Some b -> nth_error B j = Some c ->
       ~ (j = f /\ i = g /\ i = h /\ j = k) /\ ~ (i = f /\ j = g /\ j = h /\ i = k) /\
       ~ (j = f /\ j = g /\ i = h /\ i = k) /\ ~ (i = f /\ i = g /\ j = h /\ j = k)).
    { intros i j b c Hij Hb Hc.
      assert (C : cnd (b, c) = false).
      { apply (find_none _ _ E). apply -> in_rev. apply combinations2_in. eauto. }
      unfold cnd in C.
      rewrite (is_blk i b p bf f), (is_blk i b q bg g), (is_blk i b r bh h), (is_blk i b s bk k) in C by auto.
      rewrite (is_blk j c p bf f), (is_blk j c q bg g), (is_blk j c r bh h), (is_blk j c s bk k) in C by auto.
      rewrite !orb_false_iff in C. destruct C as [[[C1 C2] C3] C4].
      repeat split; intros (E1 & E2 & E3 & E4); subst; rewrite !Nat.eqb_refl in *; discriminate. }
    rewrite T0. unfold dm2_val. clear E cnd val T0 t0 DA.
    destruct (Nat.eqb_spec f g) as [Efg|Efg]; cbn [andb].
    + destruct (Nat.eqb_spec h k) as [Ehk|Ehk]; cbn [andb].
      * destruct (Nat.eqb_spec f h) as [Efh|Efh]; auto. exfalso. subst g k.
        destruct (lt_eq_lt_dec f h) as [[L|L]|L]; [|congruence|].
        -- apply (proj2 (proj2 (proj2 (N f h bf bh L Hf Hh)))). auto.
        -- apply (proj1 (proj2 (proj2 (N h f bh bf L Hh Hf)))). auto.
      * subst g. destruct (Nat.eqb_spec f k); cbn [andb]; auto. destruct (Nat.eqb_spec f h); auto. lia.
    + destruct (Nat.eqb_spec f k) as [Efk|Efk]; cbn [andb]; auto.
      destruct (Nat.eqb_spec g h) as [Egh|Egh]; auto. exfalso. subst h k.
      destruct (lt_eq_lt_dec f g) as [[L|L]|L]; [|congruence|].
      -- apply (proj1 (proj2 (N f g bf bg L Hf Hg))). auto.
      -- apply (proj1 (N g f bg bf L Hg Hf)). auto.
Qed.
End At.
End Frags.

(** ** Sums over fragments *)
Lemma bsum_split {A} (dec : forall x y : A, {x = y} + {x <> y}) (l : list A) (F : A -> K) x : NoDup l -> In x l ->
  bsum l F = F x + bsum (filter (fun y => if dec y x then false else true) l) F.
Proof.
  intros ND I. induction ND as [|a l N ND IH]; [destruct I|].
  cbn [filter]. change (bsum (a :: l) F) with (F a + bsum l F). destruct (dec a x) as [->|D].
  - f_equal. clear IH I. induction l as [|b l IH']; auto. cbn. destruct (dec b x) as [->|].
    + destruct N; left; auto.
    + cbn [bsum]. f_equal. apply IH'; [intros I; apply N; right; auto | inversion ND; auto].
  - destruct I as [->|I]; [congruence|]. rewrite (IH I).
    change (bsum (a :: filter (fun y => if dec y x then false else true) l) F) with (F a + bsum (filter (fun y => if dec y x then false else true) l) F). ring.
Qed.
Lemma bsum_sub {A} (l : list A) (f g : A -> K) : bsum l (fun x => f x - g x) = bsum l f - bsum l g.
Proof. induction l as [|a l IH]; cbn; [ring|]. rewrite IH. ring. Qed.
Lemma bsum_opp {A} (l : list A) (f : A -> K) : bsum l (fun x => - f x) = - bsum l f.
Proof. induction l as [|a l IH]; cbn; [ring|]. rewrite IH. ring. Qed.

Lemma map_nth_all {A} (l : list A) d : map (fun i => nth i l d) (seq 0 (length l)) = l.
Proof. induction l as [|a l IH]; auto. cbn. f_equal. rewrite <- seq_shift, map_map. exact IH. Qed.
Lemma bsum2_ext {A B} (l : list A) (m : list B) (f g : A -> B -> K) : (forall x y, In x l -> In y m -> f x y = g x y) ->
  bsum l (fun x => bsum m (f x)) = bsum l (fun x => bsum m (g x)).
Proof. intros H. apply bsum_ext; intros; apply bsum_ext; intros; auto. Qed.
Lemma bsum2_add {A B} (l : list A) (m : list B) (f g : A -> B -> K) :
  bsum l (fun x => bsum m (fun y => f x y + g x y)) = bsum l (fun x => bsum m (f x)) + bsum l (fun x => bsum m (g x)).
Proof. rewrite <- bsum_add. apply bsum_ext; intros; apply bsum_add. Qed.
Lemma bsum2_sub {A B} (l : list A) (m : list B) (f g : A -> B -> K) :
  bsum l (fun x => bsum m (fun y => f x y - g x y)) = bsum l (fun x => bsum m (f x)) - bsum l (fun x => bsum m (g x)).
Proof. rewrite <- bsum_sub. apply bsum_ext; intros; apply bsum_sub. Qed.
Lemma bsum2_mul_r {A B} (l : list A) (m : list B) (f : A -> B -> K) c :
  bsum l (fun x => bsum m (f x)) * c = bsum l (fun x => bsum m (fun y => f x y * c)).
Proof. rewrite bsum_mul_r. apply bsum_ext; intros; apply bsum_mul_r. Qed.
Lemma bsum2_swap {A B C D} (l1 : list A) (l2 : list B) (l3 : list C) (l4 : list D) (f : A -> B -> C -> D -> K) :
  bsum l1 (fun a => bsum l2 (fun b => bsum l3 (fun c => bsum l4 (fun d => f a b c d)))) =
  bsum l3 (fun c => bsum l4 (fun d => bsum l1 (fun a => bsum l2 (fun b => f a b c d)))).
Proof.
  transitivity (bsum l1 (fun a => bsum l3 (fun c => bsum l4 (fun d => bsum l2 (fun b => f a b c d))))).
  { apply bsum_ext; intros a _. rewrite bsum_swap. apply bsum_ext; intros c _. apply bsum_swap. }
  rewrite bsum_swap. apply bsum_ext; intros c _. apply bsum_swap.
Qed.

(** ** Interaction energies of two blocks *)
Section W.
Variable h2 : T4 K.
Definition Dt (b : block) : T2 K := fun p q => Db b false p q + Db b true p q.
Definition Jx (b c : block) : K :=
  bsum (blk b) (fun p => bsum (blk b) (fun q => bsum (blk c) (fun r => bsum (blk c) (fun s =>
    h2 p q r s * (Dt b p q * Dt c r s))))).
Definition Kx (b c : block) : K :=
  bsum (blk b) (fun p => bsum (blk c) (fun q => bsum (blk c) (fun r => bsum (blk b) (fun s =>
    h2 p q r s * - (Db b false p s * Db c false q r + Db b true p s * Db c true q r))))).
Definition Wx b c : K := Jx b c + Kx b c.
(** the potential of b on the density of c *)
Definition Px (b c : block) : K := dot1 (blk c) (potential (blk b) (Db b) h2) (Db c).

Hypothesis exch : forall p q r s, h2 p q r s = h2 r s p q.

Definition Pbody (b c : block) (a d p q : nat) : K :=
  h2 p q a d * (Dt b p q * Dt c a d) - h2 a q p d * (Db b false p q * Db c false a d + Db b true p q * Db c true a d).

Lemma Px_eq b c : Px b c = bsum (blk c) (fun a => bsum (blk c) (fun d => bsum (blk b) (fun p => bsum (blk b) (fun q => Pbody b c a d p q)))).
Proof.
  unfold Px, dot1. cbn [bsum].
  match goal with |- ?x + (?y + s0) = _ => transitivity (x + y); [ring|] end.
  rewrite <- bsum2_add. apply bsum2_ext; intros a d _ _. unfold potential. cbn [negb].
  rewrite <- !bsum2_add, <- !bsum2_sub, !bsum2_mul_r, <- bsum2_add.
  apply bsum2_ext; intros p q _ _. unfold Pbody, Dt. ring.
Qed.
Lemma Px_sym b c : Px b c = Px c b.
Proof.
  rewrite !Px_eq, bsum2_swap. apply bsum2_ext; intros p q _ _. apply bsum2_ext; intros a d _ _.
  unfold Pbody. rewrite (exch a d p q), (exch a q p d). ring.
Qed.
Definition sym_block (b : block) : Prop := forall s p q, In p (blk b) -> In q (blk b) -> Db b s p q = Db b s q p.
Lemma Px_W b c : sym_block b -> Px b c = Wx c b.
Proof.
  intros S. rewrite Px_eq. unfold Wx, Jx, Kx.
  transitivity (bsum (blk c) (fun a => bsum (blk c) (fun d => bsum (blk b) (fun p => bsum (blk b) (fun q => h2 a d p q * (Dt c a d * Dt b p q)))))
    + bsum (blk c) (fun a => bsum (blk c) (fun d => bsum (blk b) (fun p => bsum (blk b) (fun q =>
         h2 a q p d * - (Db c false a d * Db b false q p + Db c true a d * Db b true q p)))))).
  - rewrite <- bsum2_add. apply bsum2_ext; intros a d _ _. rewrite <- bsum2_add. apply bsum2_ext; intros p q Hp Hq.
    unfold Pbody. rewrite (exch p q a d), (S false p q), (S true p q) by auto. ring.
  - f_equal. apply bsum_ext; intros a _.
    transitivity (bsum (blk b) (fun p => bsum (blk c) (fun d => bsum (blk b) (fun q =>
       h2 a q p d * - (Db c false a d * Db b false q p + Db c true a d * Db b true q p))))).
    { apply bsum_swap. }
    transitivity (bsum (blk b) (fun p => bsum (blk b) (fun q => bsum (blk c) (fun d =>
       h2 a q p d * - (Db c false a d * Db b false q p + Db c true a d * Db b true q p))))).
    { apply bsum_ext; intros p _. apply bsum_swap. }
    apply bsum_swap.
Qed.
End W.

(** ** The energy as a sum over fragments and pairs of fragments *)
Section E.
Variable fr : list pf.
Variable d0 : block.
Notation B := (blocks fr).
Notation N := (seq 0 (length fr)).
Notation Bn g := (nth g B d0).
Notation L := (seq 0 (norb fr)).
Notation others f := (filter (fun g => if Nat.eq_dec g f then false else true) N).

Lemma Bn_ok g : In g N -> nth_error B g = Some (Bn g).
Proof. intros I. apply in_seq in I. apply nth_error_nth'. rewrite blocks_length. lia. Qed.
Lemma sumL (F : nat -> K) : bsum L F = bsum N (fun g => bsum (blk (Bn g)) F).
Proof.
  rewrite all_orbs, bsum_flat_map. rewrite <- (bsum_map K (fun g => Bn g) N (fun b => bsum (blk b) F)).
  f_equal. rewrite <- blocks_length. symmetry. apply map_nth_all.
Qed.

Lemma sum_diag (F : nat -> nat -> K) : (forall g k p q, In g N -> In k N -> g <> k -> In p (blk (Bn g)) -> In q (blk (Bn k)) -> F p q = s0) ->
  bsum L (fun p => bsum L (F p)) = bsum N (fun g => bsum (blk (Bn g)) (fun p => bsum (blk (Bn g)) (F p))).
Proof.
  intros H. rewrite sumL. apply bsum_ext; intros g Hg. apply bsum_ext; intros p Hp. rewrite sumL.
  apply (bsum_single K N (fun k => bsum (blk (Bn k)) (F p)) g); auto using seq_NoDup. intros k Hk Hkg. apply bsum_0. intros q Hq. apply (H g k); auto.
Qed.
Lemma dm1_diag g s p q : In g N -> In p (blk (Bn g)) -> In q (blk (Bn g)) -> make_rdm1s fr s p q = Db (Bn g) s p q.
Proof.
  intros Hg Hp Hq. rewrite (dm1_at fr g g (Bn g) (Bn g)) by auto using Bn_ok. rewrite Nat.eqb_refl. auto.
Qed.
Lemma dm1_off g k s p q : In g N -> In k N -> g <> k -> In p (blk (Bn g)) -> In q (blk (Bn k)) -> make_rdm1s fr s p q = s0.
Proof.
  intros Hg Hk Hn Hp Hq. rewrite (dm1_at fr g k (Bn g) (Bn k)) by auto using Bn_ok.
  destruct (Nat.eqb_spec g k); congruence.
Qed.

Lemma dot1_block g h : In g N -> dot1 (blk (Bn g)) h (make_rdm1s fr) = dot1 (blk (Bn g)) h (Db (Bn g)).
Proof.
  intros Hg. unfold dot1. apply bsum_ext; intros s _. apply bsum2_ext; intros p q Hp Hq. rewrite (dm1_diag g) by auto. auto.
Qed.
Lemma dot1_L h : dot1 L h (make_rdm1s fr) = bsum N (fun g => dot1 (blk (Bn g)) h (Db (Bn g))).
Proof.
  unfold dot1. etransitivity; [|apply bsum_swap]. apply bsum_ext; intros s _. rewrite sum_diag.
  - apply bsum_ext; intros g Hg. apply bsum2_ext; intros p q Hp Hq. rewrite (dm1_diag g) by auto. auto.
  - intros g k p q Hg Hk Hn Hp Hq. rewrite (dm1_off g k) by auto. ring.
Qed.
Lemma pot_block g h2 s a d : In g N ->
  potential (blk (Bn g)) (make_rdm1s fr) h2 s a d = potential (blk (Bn g)) (Db (Bn g)) h2 s a d.
Proof.
  intros Hg. unfold potential. f_equal; [f_equal|]; apply bsum2_ext; intros p q Hp Hq; rewrite (dm1_diag g) by auto; auto.
Qed.
Lemma pot_L h2 s a d : potential L (make_rdm1s fr) h2 s a d = bsum N (fun g => potential (blk (Bn g)) (Db (Bn g)) h2 s a d).
Proof.
  unfold potential. rewrite bsum_sub, bsum_add. f_equal; [f_equal|]; rewrite sum_diag.
  all: try (intros g k p q Hg Hk Hn Hp Hq; rewrite (dm1_off g k) by auto; ring).
  all: apply bsum_ext; intros g Hg; apply bsum2_ext; intros p q Hp Hq; rewrite (dm1_diag g) by auto; auto.
Qed.
Lemma dot1_pot_L c h2 : dot1 (blk c) (potential L (make_rdm1s fr) h2) (Db c) = bsum N (fun g => Px h2 (Bn g) c).
Proof.
  unfold Px, dot1. etransitivity; [|apply bsum_swap]. apply bsum_ext; intros s _.
  etransitivity; [|apply bsum_swap]. apply bsum_ext; intros p _. etransitivity; [|apply bsum_swap]. apply bsum_ext; intros q _.
  rewrite pot_L, bsum_mul_r. auto.
Qed.
Lemma dot1_comm M (h d : bool -> T2 K) : dot1 M h d = dot1 M d h.
Proof. unfold dot1. apply bsum_ext; intros s _. apply bsum2_ext; intros. ring. Qed.
Lemma dot1_ext M (h h' d : bool -> T2 K) : (forall s p q, In p M -> In q M -> h s p q = h' s p q) -> dot1 M h d = dot1 M h' d.
Proof. intros H. unfold dot1. apply bsum_ext; intros s _. apply bsum2_ext; intros. rewrite H; auto. Qed.
Lemma dot1_add M (h h' d : bool -> T2 K) : dot1 M (fun s p q => h s p q + h' s p q) d = dot1 M h d + dot1 M h' d.
Proof.
  unfold dot1. rewrite <- bsum_add. apply bsum_ext; intros s _. rewrite <- bsum2_add. apply bsum2_ext; intros. ring.
Qed.
Lemma dot1_sub M (h h' d : bool -> T2 K) : dot1 M (fun s p q => h s p q - h' s p q) d = dot1 M h d - dot1 M h' d.
Proof.
  unfold dot1. rewrite <- bsum_sub. apply bsum_ext; intros s _. rewrite <- bsum2_sub. apply bsum2_ext; intros. ring.
Qed.

(** the two-body energy *)
Lemma dot2_block g h2 : In g N -> dot2 (blk (Bn g)) h2 (make_rdm2 fr) = dot2 (blk (Bn g)) h2 (D2b (Bn g)).
Proof.
  intros Hg. unfold dot2. apply bsum2_ext; intros p q Hp Hq. apply bsum2_ext; intros r s Hr Hs. f_equal.
  rewrite (dm2_at_ fr g g g g (Bn g) (Bn g) (Bn g) (Bn g)) by (auto using Bn_ok; apply inb_iff; auto).
  unfold dm2_val. rewrite Nat.eqb_refl. auto.
Qed.
Definition X h2 g k h l : K :=
  bsum (blk (Bn g)) (fun p => bsum (blk (Bn k)) (fun q => bsum (blk (Bn h)) (fun r => bsum (blk (Bn l)) (fun s =>
    h2 p q r s * make_rdm2 fr p q r s)))).
Lemma dot2_X h2 : dot2 L h2 (make_rdm2 fr) =
  bsum N (fun g => bsum N (fun k => bsum N (fun h => bsum N (fun l => X h2 g k h l)))).
Proof.
  unfold dot2, X. rewrite sumL. apply bsum_ext; intros g _.
  transitivity (bsum (blk (Bn g)) (fun p => bsum N (fun k => bsum (blk (Bn k)) (fun q => bsum N (fun h => bsum (blk (Bn h)) (fun r =>
    bsum N (fun l => bsum (blk (Bn l)) (fun s => h2 p q r s * make_rdm2 fr p q r s)))))))).
  { apply bsum_ext; intros p _. rewrite sumL. apply bsum_ext; intros k _; apply bsum_ext; intros q _.
    rewrite sumL. apply bsum_ext; intros h _; apply bsum_ext; intros r _. apply sumL. }
  rewrite bsum_swap. apply bsum_ext; intros k _.
  transitivity (bsum (blk (Bn g)) (fun p => bsum N (fun h => bsum (blk (Bn k)) (fun q => bsum N (fun l => bsum (blk (Bn h)) (fun r =>
     bsum (blk (Bn l)) (fun s => h2 p q r s * make_rdm2 fr p q r s))))))).
  { apply bsum_ext; intros p _. rewrite bsum_swap. apply bsum_ext; intros h _. apply bsum_ext; intros q _. apply bsum_swap. }
  rewrite bsum_swap. apply bsum_ext; intros h _.
  transitivity (bsum (blk (Bn g)) (fun p => bsum N (fun l => bsum (blk (Bn k)) (fun q => bsum (blk (Bn h)) (fun r =>
     bsum (blk (Bn l)) (fun s => h2 p q r s * make_rdm2 fr p q r s)))))).
  { apply bsum_ext; intros p _. apply bsum_swap. }
  apply bsum_swap.
Qed.
Lemma X_val h2 g k h l : In g N -> In k N -> In h N -> In l N -> X h2 g k h l =
  if (g =? k) && (h =? l) then (if g =? h then dot2 (blk (Bn g)) h2 (D2b (Bn g)) else Jx h2 (Bn g) (Bn h))
  else if (g =? l) && (k =? h) then Kx h2 (Bn g) (Bn k) else s0.
Proof.
  intros Hg Hk Hh Hl. unfold X.
  erewrite bsum2_ext by (intros p q Hp Hq; apply bsum2_ext; intros r s Hr Hs;
    rewrite (dm2_at_ fr g k h l (Bn g) (Bn k) (Bn h) (Bn l)) by (auto using Bn_ok; apply inb_iff; auto); reflexivity).
  unfold dm2_val.
  destruct (Nat.eqb_spec g k); cbn [andb].
  - subst k. destruct (Nat.eqb_spec h l).
    + subst l. destruct (Nat.eqb_spec g h); [subst h; reflexivity | reflexivity].
    + destruct (Nat.eqb_spec g l); cbn [andb].
      * destruct (Nat.eqb_spec g h); [congruence|]. apply bsum_0; intros; apply bsum_0; intros; apply bsum_0; intros; apply bsum_0; intros. ring.
      * apply bsum_0; intros; apply bsum_0; intros; apply bsum_0; intros; apply bsum_0; intros. ring.
  - destruct (Nat.eqb_spec g l); cbn [andb].
    + subst l. destruct (Nat.eqb_spec k h); [subst h; reflexivity|].
      apply bsum_0; intros; apply bsum_0; intros; apply bsum_0; intros; apply bsum_0; intros. ring.
    + apply bsum_0; intros; apply bsum_0; intros; apply bsum_0; intros; apply bsum_0; intros. ring.
Qed.
Lemma dot2_L h2 : dot2 L h2 (make_rdm2 fr) =
  bsum N (fun g => dot2 (blk (Bn g)) h2 (D2b (Bn g)) + bsum (others g) (fun h => Wx h2 (Bn g) (Bn h))).
Proof.
  rewrite dot2_X. apply bsum_ext; intros g Hg.
  assert (ND : NoDup N) by apply seq_NoDup.
  rewrite (bsum_split Nat.eq_dec N _ g ND Hg).
  assert (E1 : bsum N (fun h => bsum N (fun l => X h2 g g h l)) =
     dot2 (blk (Bn g)) h2 (D2b (Bn g)) + bsum (others g) (fun h => Jx h2 (Bn g) (Bn h))).
  { transitivity (bsum N (fun h => if g =? h then dot2 (blk (Bn g)) h2 (D2b (Bn g)) else Jx h2 (Bn g) (Bn h))).
    - apply bsum_ext; intros h Hh. rewrite (bsum_single K N _ h ND Hh).
      + rewrite X_val, !Nat.eqb_refl by auto. auto.
      + intros l Hl Hn. rewrite X_val by auto. rewrite Nat.eqb_refl. cbn [andb].
        destruct (Nat.eqb_spec h l); [congruence|]. destruct (Nat.eqb_spec g l); cbn [andb]; auto.
        destruct (Nat.eqb_spec g h); auto. congruence.
    - rewrite (bsum_split Nat.eq_dec N _ g ND Hg). rewrite Nat.eqb_refl. f_equal.
      apply bsum_ext; intros h Hh. apply filter_In in Hh as [_ Hh]. destruct (Nat.eq_dec h g); [discriminate|].
      destruct (Nat.eqb_spec g h); auto. congruence. }
  rewrite E1.
  assert (E2 : bsum (others g) (fun k => bsum N (fun h => bsum N (fun l => X h2 g k h l))) =
     bsum (others g) (fun k => Kx h2 (Bn g) (Bn k))).
  { apply bsum_ext; intros k Hk. apply filter_In in Hk as [Hk Hn]. destruct (Nat.eq_dec k g); [discriminate|].
    rewrite (bsum_single K N _ k ND Hk).
    - rewrite (bsum_single K N _ g ND Hg).
      + rewrite X_val by auto. destruct (Nat.eqb_spec g k); [congruence|]. rewrite !Nat.eqb_refl. auto.
      + intros l Hl Hlg. rewrite X_val by auto. destruct (Nat.eqb_spec g k); [congruence|]. cbn [andb].
        destruct (Nat.eqb_spec g l); auto. congruence.
    - intros h Hh Hhk. apply bsum_0; intros l Hl. rewrite X_val by auto. destruct (Nat.eqb_spec g k); [congruence|]. cbn [andb].
      destruct (Nat.eqb_spec g l); cbn [andb]; auto. destruct (Nat.eqb_spec k h); auto. congruence. }
  rewrite E2. unfold Wx. rewrite bsum_add. ring.
Qed.
End E.
End F.
