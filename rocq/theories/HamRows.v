(** What each function of HamS2Ovlp computes: the densities of its row, contracted with the coefficients of the operator. *)
From Coq Require Import List NArith ZArith Arith Bool Btauto Lia Sorting.Permutation.
From Verif Require Import Base BaseFacts Star FockSpec FockFacts FockOps ProdFock PermFock LprodSpec LasFock LasElem SignsModel SignsFacts LasSigns ExcSpec CrunchModel CrunchSpec CrunchFacts CrunchRows HamModel HamSum.
Import ListNotations.
Local Open Scope nat_scope.

Definition cs (bs : list nat) (f1 f2 f3 f4 : nat) : list (nat * (nat * nat * (nat * nat))) := map (fun b => (b, ((f1, f2), (f3, f4)))) bs.
Lemma in_cs b bs f1 f2 f3 f4 : In b bs -> In (b, ((f1, f2), (f3, f4))) (cs bs f1 f2 f3 f4).
Proof. intros H. unfold cs. now apply (in_map (fun b => (b, ((f1, f2), (f3, f4))))). Qed.
Lemma cs_in c bs f1 f2 f3 f4 : In c (cs bs f1 f2 f3 f4) -> exists b, In b bs /\ c = (b, ((f1, f2), (f3, f4))).
Proof. intros H. apply in_map_iff in H as (b & <- & H). eauto. Qed.
Lemma index_in b bs k : index_of b bs = Some k -> In b bs.
Proof. revert k. induction bs as [|c bs IH]; cbn; intros k H; [discriminate|]. destruct (Nat.eqb_spec b c) as [->|]; [now left|]. destruct (index_of b bs) eqn:E; [|discriminate]. right. eapply IH. reflexivity. Qed.

Section HRows.
Variables (K : star_ring) (nf : nat) (n : nat -> nat).
Add Ring Kr : (sring K).
Variables (V : nat -> nat -> nat -> vec K) (ne : nat -> nat -> nat * nat) (nl : nat -> nat -> nat).
Variables (ints : nat -> @fmats K) (uroot : nat -> nat -> nat) (nelec_rf : nat -> list nat) (nz : K -> bool).
Hypothesis H8 : nf <= 8.
Hypothesis Hne : forall f a i, f < nf -> i < nl f a -> has_nelec K (n f) (ne f a) (V f a i).
Hypothesis Hex : forall f, f < nf -> exact K n V ne nl f (ints f).
Hypothesis Hfit : forall f a, f < nf -> 0 < nl f a -> fst (ne f a) <= n f /\ snd (ne f a) <= n f.
Hypothesis Hnz : nz s0 = false.
Variables (bra ket : nat * list nat).
Hypothesis Hbra : nelec_rf (fst bra) = map (CrunchRows.tot ne uroot (fst bra)) (seq 0 nf).
Hypothesis Hket : nelec_rf (fst ket) = map (CrunchRows.tot ne uroot (fst ket)) (seq 0 nf).
Notation A := (fun f => loc uroot f bra).
Notation B := (fun f => loc uroot f ket).
Notation el := (el K n V).
Notation Lx fr x := (Lel K nf n V ne fr A B (xops x)).
Notation row_is := (row_is K nf n V ne uroot bra ket).
Notation conn := (conn nf ne nl uroot bra ket).
Notation tixb := (tixb nf n).
Notation gsum := (gsum nf n).
Notation blk1 := (blk1 n).
Notation blk2 := (blk2 n).
(** coefficients contracted with the densities of the row *)
Definition target (g : tix -> K) (fr : list nat) : K := gsum (fun x => smul (g x) (if tixb x && touch fr x then Lx fr x else s0)).
Definition gL (g : tix -> K) (fr : list nat) (x : tix) : K := smul (g x) (Lx fr x).
Definition pairsym (g : tix -> K) : Prop := forall b p q r u, b < 4 -> g (X2 b p q r u) = g (X2 (bswap b) r u p q).

Lemma target_of fr r d1 d2 P1 P2 g : row_is fr r -> r = Ok (dens d1 d2) -> (forall f, In f fr -> f < nf) ->
  NoDup P1 -> NoDup P2 -> (forall s f f', In (s, (f, f')) P1 -> s < 2 /\ forall x, In x [f; f'] <-> In x fr) ->
  (forall b f1 f2 f3 f4, In (b, ((f1, f2), (f3, f4))) P2 -> b < 4 /\ forall x, In x [f1; f3; f4; f2] <-> In x fr) ->
  (forall s p q, ~ In (s, (fst p, fst q)) P1 -> d1 s p q = s0) -> (forall b p q r u, ~ In (cell_of2 b p q r u) P2 -> d2 b p q r u = s0) ->
  target g fr = sadd (bsum P1 (blk1 (gL g fr))) (bsum P2 (blk2 (gL g fr))).
Proof.
  intros (d & E & Hd) Er Hf N1 N2 C1 C2 Z1 Z2. rewrite Er in E. injection E as <-. unfold target.
  rewrite (gsum_ext nf n _ (fun x => smul (g x) (dens d1 d2 x))) by (intros x; now rewrite Hd).
  rewrite (gsum_support nf n _ P1 P2 N1 N2).
  - f_equal; apply bsum_ext.
    + intros [s [f f']] I. destruct (C1 _ _ _ I) as [Hs Ht]. apply sum2_ext. intros p q Hp Hq. unfold gL. rewrite Hd.
      assert (f < nf) by (apply Hf, Ht; cbn; auto). assert (f' < nf) by (apply Hf, Ht; cbn; auto).
      replace (tixb (X1 s (f, p) (f', q))) with true by (symmetry; cbn [tixb]; rewrite !andb_true_iff, !orbb_iff, Nat.ltb_lt; unfold orb_in; cbn [fst snd]; tauto).
      replace (touch fr (X1 s (f, p) (f', q))) with true by (symmetry; apply touch_iff; exact Ht). reflexivity.
    + intros [b [[f1 f2] [f3 f4]]] I. destruct (C2 _ _ _ _ _ I) as [Hs Ht]. apply sum4_ext. intros p q r' u Hp Hq Hr Hu. unfold gL. rewrite Hd.
      assert (f1 < nf) by (apply Hf, Ht; cbn; auto). assert (f2 < nf) by (apply Hf, Ht; cbn; auto). assert (f3 < nf) by (apply Hf, Ht; cbn; auto). assert (f4 < nf) by (apply Hf, Ht; cbn; auto).
      replace (tixb (X2 b (f1, p) (f2, q) (f3, r') (f4, u))) with true by (symmetry; cbn [tixb]; rewrite !andb_true_iff, !orbb_iff, Nat.ltb_lt; unfold orb_in; cbn [fst snd]; tauto).
      replace (touch fr (X2 b (f1, p) (f2, q) (f3, r') (f4, u))) with true by (symmetry; apply touch_iff; exact Ht). reflexivity.
  - intros [s [f f']] I. destruct (C1 _ _ _ I) as [Hs Ht]. apply in_cells1; [exact Hs|apply Hf, Ht; cbn; auto..].
  - intros [b [[f1 f2] [f3 f4]]] I. destruct (C2 _ _ _ _ _ I) as [Hs Ht]. apply in_cells2; [exact Hs|apply Hf, Ht; cbn; auto..].
  - intros s p q H. cbn [dens]. rewrite (Z1 s p q H). ring.
  - intros b p q r' u H. cbn [dens]. rewrite (Z2 b p q r' u H). ring.
Qed.
Lemma set1_off bs f f' a d s p q : ~ (In s bs /\ fst p = f /\ fst q = f') -> @set1 K n bs f f' a d s p q = d s p q.
Proof.
  intros H. unfold set1. destruct (index_of s bs) eqn:E; [|reflexivity]. apply index_in in E. destruct (ofrag n f p && ofrag n f' q) eqn:Eo; [|reflexivity].
  rewrite andb_true_iff, !ofrag_iff in Eo. exfalso. apply H. tauto.
Qed.
Lemma set2_off bs f1 f2 f3 f4 a d b p q r u : ~ (In b bs /\ fst p = f1 /\ fst q = f2 /\ fst r = f3 /\ fst u = f4) -> @set2 K n bs f1 f2 f3 f4 a d b p q r u = d b p q r u.
Proof.
  intros H. unfold set2. destruct (index_of b bs) eqn:E; [|reflexivity]. apply index_in in E. destruct (ofrag n f1 p && ofrag n f2 q && ofrag n f3 r && ofrag n f4 u) eqn:Eo; [|reflexivity].
  rewrite !andb_true_iff, !ofrag_iff in Eo. exfalso. apply H. tauto.
Qed.

(** ** exchange *)
Definition okf (fr : list nat) : Prop := forall f, In f fr -> f < nf.
Ltac okx' H := split; [cbn [xops]; unfold cr, an; repeat (apply Forall_cons; [cbn [okop fst snd]; split; [apply H; assumption|assumption]|]); apply Forall_nil
  | let z := fresh in let J := fresh in intros z J; cbn [xops In] in J; unfold cr, an in J; repeat (destruct J as [J|J]; [subst z; cbn [opfrag fst snd]; assumption|]); destruct J].
Lemma blk_pair g fr b f1 f2 f3 f4 : pairsym g -> okf fr -> In f1 fr -> In f2 fr -> In f3 fr -> In f4 fr -> b < 4 ->
  blk2 (gL g fr) (b, ((f1, f2), (f3, f4))) = blk2 (gL g fr) (bswap b, ((f3, f4), (f1, f2))).
Proof.
  intros Hg Hf I1 I2 I3 I4 Hb. cbn [HamSum.blk2]. rewrite sum4_pair. apply sum4_ext. intros r u p q Hr Hu Hp Hq. unfold gL. rewrite <- Hg by exact Hb. f_equal.
  apply (ex1 K nf n V ne uroot H8 bra ket); [exact Hb|okx' Hf].
Qed.
(** coefficients with the annihilators exchanged *)
Definition blkx (g : tix -> K) (fr : list nat) (b f1 f2 f3 f4 : nat) : K :=
  sum4 (n f1) (n f2) (n f3) (n f4) (fun p q r u => smul (g (X2 b (f1, p) (f4, u) (f3, r) (f2, q))) (Lx fr (X2 b (f1, p) (f2, q) (f3, r) (f4, u)))).
Lemma blk_ex g fr b f1 f2 f3 f4 : okf fr -> In f1 fr -> In f2 fr -> In f3 fr -> In f4 fr -> b = 0 \/ b = 3 ->
  blk2 (gL g fr) (b, ((f1, f4), (f3, f2))) = sopp (blkx g fr b f1 f2 f3 f4).
Proof.
  intros Hf I1 I2 I3 I4 Hb. cbn [HamSum.blk2]. rewrite sum4_ex2. transitivity (smul (sopp s1) (blkx g fr b f1 f2 f3 f4)); [|ring]. unfold blkx. rewrite sum4_mul_l. apply sum4_ext.
  intros p u r q Hp Hu Hr Hq. unfold gL. rewrite (ex2 K nf n V ne uroot bra ket fr b (f1, p) (f4, q) (f3, r) (f2, u)); [ring|exact Hb|okx' Hf].
Qed.
Definition two (x : K) : K := sadd x x.
Definition B2 (g : tix -> K) (fr : list nat) (b f1 f2 f3 f4 : nat) : K :=
  sum4 (n f1) (n f2) (n f3) (n f4) (fun p q r u => smul (g (X2 b (f1, p) (f2, q) (f3, r) (f4, u))) (Lx fr (X2 b (f1, p) (f2, q) (f3, r) (f4, u)))).
Lemma bsum_cs bs f1 f2 f3 f4 F : bsum (cs bs f1 f2 f3 f4) F = bsum bs (fun b => F (b, ((f1, f2), (f3, f4)))) :> K.
Proof. unfold cs. now rewrite bsum_map. Qed.

(** ** the totals of the rows *)
Ltac nodups := cbn [cs map app Nat.mul Nat.add Nat.sub]; repeat (apply NoDup_cons; [cbn [In]; intuition congruence|]); apply NoDup_nil.
Ltac cells := intros; cbn [In cs map app] in *; repeat match goal with H : _ \/ _ |- _ => destruct H as [H|H] end; try contradiction;
  match goal with H : (_, _) = (_, _) |- _ => injection H; intros; subst end; (split; [lia|intros; cbn [In]; tauto]).
Ltac open H := repeat match type of H with
  | context [bind ?r _] => lazymatch r with context [bind _ _] => fail | _ => destruct r; [cbn [bind] in H|exfalso; destruct H as (? & ? & _); discriminate] end
  end.
Ltac off1 H := repeat (rewrite set2_off; [|let X := fresh in intros X; apply H; unfold cell_of2; destruct X as (X & -> & -> & -> & ->); cbn [In cs map app] in X |- *; intuition (subst; auto 20)]); reflexivity.
Lemma tgt_1d g i : i < nf -> row_is [i] (crunch_1d n ints uroot bra ket i) ->
  target g [i] = sadd (bsum [0; 1] (fun s => sum2 (n i) (n i) (fun p q => smul (g (X1 s (i, p) (i, q))) (Lx [i] (X1 s (i, p) (i, q)))))) (bsum [0; 1; 2; 3] (fun b => B2 g [i] b i i i i)).
Proof.
  intros Li Hr. unfold crunch_1d in Hr. open Hr.
  rewrite (target_of [i] _ _ _ [(0, (i, i)); (1, (i, i))] (cs [0; 1; 2; 3] i i i i) g Hr eq_refl); [|intros f [<-|[]]; exact Li|nodups|nodups|cells|cells|..].
  - reflexivity.
  - intros s p q H. rewrite set1_off; [reflexivity|]. intros (X & E1 & E2). apply H. rewrite E1, E2. cbn [In] in *. intuition (subst; auto).
  - intros b p q r u H. off1 H.
Qed.
Lemma tgt_2d g i j : pairsym g -> i < nf -> j < nf -> i <> j -> row_is [i; j] (crunch_2d n ints uroot bra ket i j) ->
  target g [i; j] = ssub (two (bsum [0; 1; 2; 3] (fun b => B2 g [i; j] b i i j j))) (two (bsum [0; 3] (fun b => blkx g [i; j] b i i j j))).
Proof.
  intros Hg Li Lj N Hr. assert (Hf : okf [i; j]) by (intros f [<-|[<-|[]]]; assumption). unfold crunch_2d in Hr. open Hr.
  rewrite (target_of [i; j] _ _ _ [] (cs [0; 1; 2; 3] i i j j ++ cs [0; 1; 2; 3] j j i i ++ cs [0; 3] i j j i ++ cs [0; 3] j i i j) g Hr eq_refl); [|exact Hf|nodups|nodups|intros s f f' []|cells|reflexivity|].
  - rewrite !bsum_app, !bsum_cs. cbn [bsum fold_right]. rewrite !(blk_pair g [i; j] _ j j i i), !(blk_pair g [i; j] _ j i i j) by (try assumption; cbn [In]; auto; lia). cbn [bswap nth].
    rewrite !(blk_ex g [i; j] _ i i j j) by (try assumption; cbn [In]; auto). unfold two. change (blk2 (gL g [i; j]) (?b, ((?x, ?y), (?z, ?w)))) with (B2 g [i; j] b x y z w). ring.
  - intros b p q r u H. off1 H.
Qed.
Lemma tgt_1c g i j s : pairsym g -> i < nf -> j < nf -> i <> j -> s < 2 -> row_is [i; j] (crunch_1c n ints uroot nelec_rf bra ket i j s) ->
  target g [i; j] = sadd (sum2 (n i) (n j) (fun p q => smul (g (X1 s (i, p) (j, q))) (Lx [i; j] (X1 s (i, p) (j, q)))))
    (sadd (two (bsum [0; 1] (fun t => B2 g [i; j] (s * 2 + t) i j i i))) (two (bsum [0; 1] (fun t => B2 g [i; j] (s * 2 + t) i j j j)))).
Proof.
  intros Hg Li Lj N Hs Hr. assert (Hf : okf [i; j]) by (intros f [<-|[<-|[]]]; assumption). unfold crunch_1c in Hr. open Hr.
  assert (Es : s = 0 \/ s = 1) by lia.
  rewrite (target_of [i; j] _ _ _ [(s, (i, j))] (cs [s * 2; s * 2 + 1] i j i i ++ cs [s; s + 2] i i i j ++ cs [s * 2; s * 2 + 1] i j j j ++ cs [s; s + 2] j j i j) g Hr eq_refl).
  - rewrite !bsum_app, !bsum_cs. cbn [bsum fold_right HamSum.blk1]. rewrite !(blk_pair g [i; j] _ i i i j), !(blk_pair g [i; j] _ j j i j) by (try assumption; cbn [In]; auto; lia).
    unfold two. change (blk2 (gL g [i; j]) (?b, ((?x, ?y), (?z, ?w)))) with (B2 g [i; j] b x y z w). unfold gL. destruct Es as [-> | ->]; cbn [bswap nth Nat.mul Nat.add]; ring.
  - exact Hf.
  - nodups.
  - destruct Es as [-> | ->]; nodups.
  - cells.
  - destruct Es as [-> | ->]; cells.
  - intros s' p q H. unfold set1b. rewrite set1_off; [reflexivity|]. intros ([->|[]] & E1 & E2). apply H. rewrite E1, E2. now left.
  - intros b p q r u H. unfold crunch_1c_tdm2, set2b. destruct Es as [-> | ->]; off1 H.
Qed.
Lemma tgt_1c1d g i j k s : pairsym g -> i < nf -> j < nf -> k < nf -> i <> j -> i <> k -> j <> k -> s < 2 -> row_is [i; j; k] (crunch_1c1d n ints uroot nelec_rf bra ket i j k s) ->
  target g [i; j; k] = ssub (two (bsum [0; 1] (fun t => B2 g [i; j; k] (s * 2 + t) i j k k))) (two (blkx g [i; j; k] (s * 3) i j k k)).
Proof.
  intros Hg Li Lj Lk N N1 N2 Hs Hr. assert (Hf : okf [i; j; k]) by (intros f [<-|[<-|[<-|[]]]]; assumption). unfold crunch_1c1d in Hr. open Hr.
  assert (Es : s = 0 \/ s = 1) by lia.
  rewrite (target_of [i; j; k] _ _ _ [] (cs [s * 2; s * 2 + 1] i j k k ++ cs [s; s + 2] k k i j ++ cs [s * 3] i k k j ++ cs [s * 3] k j i k) g Hr eq_refl).
  - rewrite !bsum_app, !bsum_cs. cbn [bsum fold_right]. rewrite !(blk_pair g [i; j; k] _ k k i j), !(blk_pair g [i; j; k] _ k j i k) by (try assumption; cbn [In]; auto; lia).
    replace (bswap (s * 3)) with (s * 3) by (destruct Es as [-> | ->]; reflexivity). rewrite !(blk_ex g [i; j; k] _ i j k k) by (try assumption; cbn [In]; auto; lia).
    unfold two. change (blk2 (gL g [i; j; k]) (?b, ((?x, ?y), (?z, ?w)))) with (B2 g [i; j; k] b x y z w). destruct Es as [-> | ->]; cbn [bswap nth Nat.mul Nat.add]; ring.
  - exact Hf.
  - nodups.
  - destruct Es as [-> | ->]; nodups.
  - intros ? ? ? [].
  - destruct Es as [-> | ->]; cells.
  - reflexivity.
  - intros b p q r u H. unfold crunch_1c_tdm2, set2b. destruct Es as [-> | ->]; off1 H.
Qed.
Lemma tgt_1s g i j : pairsym g -> i < nf -> j < nf -> i <> j -> row_is [i; j] (crunch_1s n ints uroot bra ket i j) -> target g [i; j] = two (B2 g [i; j] 1 i j j i).
Proof.
  intros Hg Li Lj N Hr. assert (Hf : okf [i; j]) by (intros f [<-|[<-|[]]]; assumption). unfold crunch_1s in Hr. open Hr.
  rewrite (target_of [i; j] _ _ _ [] (cs [1] i j j i ++ cs [2] j i i j) g Hr eq_refl).
  - rewrite !bsum_app, !bsum_cs. cbn [bsum fold_right]. rewrite !(blk_pair g [i; j] _ j i i j) by (try assumption; cbn [In]; auto; lia).
    unfold two. change (blk2 (gL g [i; j]) (?b, ((?x, ?y), (?z, ?w)))) with (B2 g [i; j] b x y z w). cbn [bswap nth]; ring.
  - exact Hf.
  - nodups.
  - nodups.
  - intros ? ? ? [].
  - cells.
  - reflexivity.
  - intros b p q r u H. unfold set2b. off1 H.
Qed.
Lemma tgt_1s1c g i j k s : pairsym g -> i < nf -> j < nf -> k < nf -> i <> j -> i <> k -> j <> k -> s < 2 -> row_is [i; j; k] (crunch_1s1c n ints uroot nelec_rf bra ket i j k s) ->
  target g [i; j; k] = two (B2 g [i; j; k] (1 + s) i k k j).
Proof.
  intros Hg Li Lj Lk N N1 N2 Hs Hr. assert (Hf : okf [i; j; k]) by (intros f [<-|[<-|[<-|[]]]]; assumption). unfold crunch_1s1c in Hr. open Hr.
  assert (Es : s = 0 \/ s = 1) by lia.
  rewrite (target_of [i; j; k] _ _ _ [] (cs [1 + s] i k k j ++ cs [2 - s] k j i k) g Hr eq_refl).
  - rewrite !bsum_app, !bsum_cs. cbn [bsum fold_right]. rewrite !(blk_pair g [i; j; k] _ k j i k) by (try assumption; cbn [In]; auto; lia).
    unfold two. change (blk2 (gL g [i; j; k]) (?b, ((?x, ?y), (?z, ?w)))) with (B2 g [i; j; k] b x y z w). destruct Es as [-> | ->]; cbn [bswap nth Nat.sub Nat.add]; ring.
  - exact Hf.
  - nodups.
  - destruct Es as [-> | ->]; nodups.
  - intros ? ? ? [].
  - destruct Es as [-> | ->]; cells.
  - reflexivity.
  - intros b p q r u H. unfold set2b. destruct Es as [-> | ->]; off1 H.
Qed.
Lemma tgt_2c g i j k l s : pairsym g -> i < nf -> j < nf -> k < nf -> l < nf -> i <> j -> i <> l -> k <> j -> k <> l -> s < 3 -> row_is [i; j; k; l] (crunch_2c n ints uroot nelec_rf nz bra ket i j k l s) ->
  target g [i; j; k; l] =
    if s =? 1 then two (B2 g [i; j; k; l] 1 i j k l)
    else let b := nth s [0; 1; 3] 0 in
         if (i =? k) && (j =? l) then B2 g [i; j; k; l] b i j k l
         else if (i =? k) || (j =? l) then two (B2 g [i; j; k; l] b i j k l)
         else ssub (two (B2 g [i; j; k; l] b i j k l)) (two (blkx g [i; j; k; l] b i j k l)).
Proof.
  intros Hg Li Lj Lk Ll N1 N2 N3 N4 Hs Hr. assert (Hf : okf [i; j; k; l]) by (intros f [<-|[<-|[<-|[<-|[]]]]]; assumption).
  assert (R : exists a d2, row_is [i; j; k; l] (Ok (dens z1 d2)) /\ d2 =
     let d2 := set2b n (nth s [0; 1; 3] 0) i j k l a z2 in
     let d2 := set2b n (nth s [0; 2; 3] 0) k l i j (tpose [2; 3; 0; 1] a) d2 in
     if nth s [0; 1; 3] 0 =? nth s [0; 2; 3] 0 then
       set2b n (nth s [0; 1; 3] 0) k j i l (fmul true (tpose [2; 1; 0; 3] a)) (set2b n (nth s [0; 1; 3] 0) i l k j (fmul true (tpose [0; 3; 2; 1] a)) d2)
     else d2).
  { unfold crunch_2c in Hr. cbv zeta in Hr. unfold check_pair, py_assert in Hr.
    destruct (i =? k), (j =? l); repeat (match type of Hr with
      | context [bind ?r _] => lazymatch r with context [bind _ _] => fail | _ => destruct r; [cbn [bind] in Hr|exfalso; destruct Hr as (? & ? & _); discriminate] end
      | CrunchRows.row_is _ _ _ _ _ _ _ _ _ (if ?x =? 1 then _ else _) => destruct (x =? 1)
      | CrunchRows.row_is _ _ _ _ _ _ _ _ _ (if negb ?c then _ else _) => destruct (negb c); [|exfalso; destruct Hr as (? & ? & _); discriminate]
      end).
    all: eexists; eexists; split; [exact Hr|reflexivity]. }
  clear Hr. destruct R as (a & d2 & Hr & Ed). assert (Es : s = 0 \/ s = 1 \/ s = 2) by lia.
  assert (Pr : forall b, b < 4 -> In b [0; 1; 2; 3]) by (intros b Hb; cbn; lia).
  assert (Bk : forall b f1 f2 f3 f4, blk2 (gL g [i; j; k; l]) (b, ((f1, f2), (f3, f4))) = B2 g [i; j; k; l] b f1 f2 f3 f4) by reflexivity.
  destruct (Nat.eqb_spec s 1) as [->|Ns].
  - cbn [nth] in Ed. change (1 =? 2) with false in Ed. cbv iota zeta in Ed.
    rewrite (target_of [i; j; k; l] _ _ _ [] (cs [1] i j k l ++ cs [2] k l i j) g Hr eq_refl); [|exact Hf|nodups|nodups|intros ? ? ? []|cells|reflexivity|intros b p q r u H; subst d2; unfold set2b; off1 H].
    rewrite !bsum_app, !bsum_cs. cbn [bsum fold_right]. rewrite !(blk_pair g [i; j; k; l] _ k l i j) by (try assumption; cbn [In]; auto 6; lia). cbn [bswap nth]. rewrite !Bk. unfold two. ring.
  - assert (Eb : exists b, (b = 0 \/ b = 3) /\ nth s [0; 1; 3] 0 = b /\ nth s [0; 2; 3] 0 = b) by (destruct Es as [-> |[-> | ->]]; [exists 0|lia|exists 3]; cbn; auto).
    destruct Eb as (b & Hb & E1 & E2). cbv zeta. rewrite E1, E2, Nat.eqb_refl in Ed. rewrite E1. cbv iota zeta in Ed. clear E1 E2.
    assert (Sb : bswap b = b) by (destruct Hb as [-> | ->]; reflexivity). assert (Lb : b < 4) by lia.
    destruct (Nat.eqb_spec i k) as [Eik|Nik]; destruct (Nat.eqb_spec j l) as [Ejl|Njl]; cbn [Datatypes.andb Datatypes.orb].
    + subst k l. rewrite (target_of [i; j; i; j] _ _ _ [] (cs [b] i j i j) g Hr eq_refl); [|exact Hf|nodups|nodups|intros ? ? ? []|cells|reflexivity|intros b' p q r u H; subst d2; unfold set2b; off1 H].
      rewrite !bsum_cs. cbn [bsum fold_right]. rewrite !Bk. ring.
    + subst k. rewrite (target_of [i; j; i; l] _ _ _ [] (cs [b] i j i l ++ cs [b] i l i j) g Hr eq_refl); [|exact Hf|nodups|nodups|intros ? ? ? []|cells|reflexivity|intros b' p q r u H; subst d2; unfold set2b; off1 H].
      rewrite !bsum_app, !bsum_cs. cbn [bsum fold_right]. rewrite !(blk_pair g [i; j; i; l] _ i l i j) by (try assumption; cbn [In]; auto 6; lia). rewrite Sb, !Bk. unfold two. ring.
    + subst l. rewrite (target_of [i; j; k; j] _ _ _ [] (cs [b] i j k j ++ cs [b] k j i j) g Hr eq_refl); [|exact Hf|nodups|nodups|intros ? ? ? []|cells|reflexivity|intros b' p q r u H; subst d2; unfold set2b; off1 H].
      rewrite !bsum_app, !bsum_cs. cbn [bsum fold_right]. rewrite !(blk_pair g [i; j; k; j] _ k j i j) by (try assumption; cbn [In]; auto 6; lia). rewrite Sb, !Bk. unfold two. ring.
    + rewrite (target_of [i; j; k; l] _ _ _ [] (cs [b] i j k l ++ cs [b] k l i j ++ cs [b] i l k j ++ cs [b] k j i l) g Hr eq_refl); [|exact Hf|nodups|nodups|intros ? ? ? []|cells|reflexivity|intros b' p q r u H; subst d2; unfold set2b; off1 H].
      rewrite !bsum_app, !bsum_cs. cbn [bsum fold_right]. rewrite !(blk_pair g [i; j; k; l] _ k l i j), !(blk_pair g [i; j; k; l] _ k j i l) by (try assumption; cbn [In]; auto 6; lia). rewrite !Sb.
      rewrite (blk_ex g [i; j; k; l] b i j k l) by (try assumption; cbn [In]; auto 6). rewrite !Bk. unfold two. ring.
Qed.
End HRows.
