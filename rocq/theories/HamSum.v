(** Sums over all pairs and quadruples of orbitals, cut into blocks of fragments. *)
From Coq Require Import List Arith Bool Lia Permutation Ring.
From Verif Require Import Base BaseFacts Star CrunchModel HamModel.
Import ListNotations.
Local Open Scope nat_scope.

Section Sum.
Context {K : star_ring}.
Add Ring Kr : (sring K).
Definition sum2 (a b : nat) (F : nat -> nat -> K) : K := bsum (seq 0 a) (fun p => bsum (seq 0 b) (fun q => F p q)).
Definition sum4 (a b c d : nat) (F : nat -> nat -> nat -> nat -> K) : K := sum2 a b (fun p q => sum2 c d (fun r u => F p q r u)).
Lemma sum2_ext a b F G : (forall p q, p < a -> q < b -> F p q = G p q) -> sum2 a b F = sum2 a b G.
Proof. intros H. apply bsum_ext. intros p Hp. apply bsum_ext. intros q Hq. apply in_seq in Hp, Hq. apply H; lia. Qed.
Lemma sum4_ext a b c d F G : (forall p q r u, p < a -> q < b -> r < c -> u < d -> F p q r u = G p q r u) -> sum4 a b c d F = sum4 a b c d G.
Proof. intros H. apply sum2_ext. intros p q Hp Hq. apply sum2_ext. intros r u Hr Hu. now apply H. Qed.
Lemma sum2_mul_l a b c F : smul c (sum2 a b F) = sum2 a b (fun p q => smul c (F p q)).
Proof. unfold sum2. rewrite bsum_mul_l. apply bsum_ext. intros p _. apply bsum_mul_l. Qed.
Lemma sum2_mul_r a b c F : smul (sum2 a b F) c = sum2 a b (fun p q => smul (F p q) c).
Proof. unfold sum2. rewrite bsum_mul_r. apply bsum_ext. intros p _. apply bsum_mul_r. Qed.
Lemma sum4_mul_l a b c d x F : smul x (sum4 a b c d F) = sum4 a b c d (fun p q r u => smul x (F p q r u)).
Proof. unfold sum4. rewrite sum2_mul_l. apply sum2_ext. intros p q _ _. apply sum2_mul_l. Qed.
Lemma sum2_add a b F G : sum2 a b (fun p q => sadd (F p q) (G p q)) = sadd (sum2 a b F) (sum2 a b G).
Proof. unfold sum2. rewrite <- bsum_add. apply bsum_ext. intros p _. apply bsum_add. Qed.
Lemma sum4_add a b c d F G : sum4 a b c d (fun p q r u => sadd (F p q r u) (G p q r u)) = sadd (sum4 a b c d F) (sum4 a b c d G).
Proof. unfold sum4. rewrite <- sum2_add. apply sum2_ext. intros p q _ _. apply sum2_add. Qed.
Lemma sum2_swap a b F : sum2 a b F = sum2 b a (fun q p => F p q).
Proof. unfold sum2. apply bsum_swap. Qed.
Lemma sum2_bsum {A} (l : list A) a b (F : A -> nat -> nat -> K) : bsum l (fun x => sum2 a b (F x)) = sum2 a b (fun p q => bsum l (fun x => F x p q)).
Proof. unfold sum2. rewrite bsum_swap. apply bsum_ext. intros p _. apply bsum_swap. Qed.
Lemma sum4_bsum {A} (l : list A) a b c d (F : A -> nat -> nat -> nat -> nat -> K) : bsum l (fun x => sum4 a b c d (F x)) = sum4 a b c d (fun p q r u => bsum l (fun x => F x p q r u)).
Proof. unfold sum4. rewrite sum2_bsum. apply sum2_ext. intros p q _ _. apply sum2_bsum. Qed.
Lemma sum2_sum2 a b c d (F : nat -> nat -> nat -> nat -> K) : sum2 a b (fun p q => sum2 c d (fun r u => F p q r u)) = sum2 c d (fun r u => sum2 a b (fun p q => F p q r u)).
Proof.
  unfold sum2. transitivity (bsum (seq 0 a) (fun p => bsum (seq 0 c) (fun r => bsum (seq 0 b) (fun q => bsum (seq 0 d) (fun u => F p q r u))))).
  { apply bsum_ext. intros p _. apply bsum_swap. }
  rewrite bsum_swap. apply bsum_ext. intros r _.
  transitivity (bsum (seq 0 a) (fun p => bsum (seq 0 d) (fun u => bsum (seq 0 b) (fun q => F p q r u)))).
  { apply bsum_ext. intros p _. apply bsum_swap. }
  apply bsum_swap.
Qed.
Lemma sum4_pair a b c d F : sum4 a b c d F = sum4 c d a b (fun r u p q => F p q r u).
Proof. unfold sum4. apply sum2_sum2. Qed.
Lemma sum4_ex2 a b c d F : sum4 a b c d F = sum4 a d c b (fun p u r q => F p q r u).
Proof.
  unfold sum4. unfold sum2 at 1 3. apply bsum_ext. intros p _. unfold sum2.
  transitivity (bsum (seq 0 b) (fun q => bsum (seq 0 d) (fun u => bsum (seq 0 c) (fun r => F p q r u)))).
  { apply bsum_ext. intros q _. apply bsum_swap. }
  rewrite bsum_swap. apply bsum_ext. intros u _. apply bsum_swap.
Qed.
Lemma sum4_ex1 a b c d F : sum4 a b c d F = sum4 c b a d (fun r q p u => F p q r u).
Proof. rewrite sum4_pair. apply sum4_ex2. Qed.

(** ** tensordot *)
Lemma idxs1 d (F : list nat -> K) : bsum (idxs [d]) F = bsum (seq 0 d) (fun p => F [p]).
Proof. cbn [idxs]. rewrite bsum_flat_map. apply bsum_ext. intros p _. cbn. ring. Qed.
Lemma idxs_cons d ds (F : list nat -> K) : bsum (idxs (d :: ds)) F = bsum (seq 0 d) (fun p => bsum (idxs ds) (fun l => F (p :: l))).
Proof. cbn [idxs]. rewrite bsum_flat_map. apply bsum_ext. intros p _. apply bsum_map. Qed.
Lemma idxs2 a b (F : list nat -> K) : bsum (idxs [a; b]) F = sum2 a b (fun p q => F [p; q]).
Proof. rewrite idxs_cons. apply bsum_ext. intros p _. apply idxs1. Qed.
Lemma idxs3 a b c (F : list nat -> K) : bsum (idxs [a; b; c]) F = bsum (seq 0 a) (fun s => sum2 b c (fun p q => F [s; p; q])).
Proof. rewrite idxs_cons. apply bsum_ext. intros p _. apply idxs2. Qed.
Lemma idxs4 a b c d (F : list nat -> K) : bsum (idxs [a; b; c; d]) F = sum4 a b c d (fun p q r u => F [p; q; r; u]).
Proof. rewrite idxs_cons. unfold sum4. apply bsum_ext. intros p _. apply idxs3. Qed.

(** ** blocks of fragments *)
Variables (nf : nat) (n : nat -> nat).
Definition orbs : list (nat * nat) := flat_map (fun f => map (pair f) (seq 0 (n f))) (seq 0 nf).
Definition gsum1 (F : tix -> K) : K := bsum (seq 0 2) (fun s => bsum orbs (fun p => bsum orbs (fun q => F (X1 s p q)))).
Definition gsum2 (F : tix -> K) : K := bsum (seq 0 4) (fun b => bsum orbs (fun p => bsum orbs (fun q => bsum orbs (fun r => bsum orbs (fun u => F (X2 b p q r u)))))).
(** sum over all entries of tdm1s and of tdm2s *)
Definition gsum (F : tix -> K) : K := sadd (gsum1 F) (gsum2 F).
Notation cell1 := (nat * (nat * nat))%type (only parsing).
Notation cell2 := (nat * (nat * nat * (nat * nat)))%type (only parsing).
Definition blk1 (F : tix -> K) (c : cell1) : K := let '(s, (f, g)) := c in sum2 (n f) (n g) (fun p q => F (X1 s (f, p) (g, q))).
Definition blk2 (F : tix -> K) (c : cell2) : K :=
  let '(b, ((f1, f2), (f3, f4))) := c in sum4 (n f1) (n f2) (n f3) (n f4) (fun p q r u => F (X2 b (f1, p) (f2, q) (f3, r) (f4, u))).
Definition cells1 : list cell1 := list_prod (seq 0 2) (list_prod (seq 0 nf) (seq 0 nf)).
Definition cells2 : list cell2 := list_prod (seq 0 4) (list_prod (list_prod (seq 0 nf) (seq 0 nf)) (list_prod (seq 0 nf) (seq 0 nf))).
Lemma orbs_sum (F : nat * nat -> K) : bsum orbs F = bsum (seq 0 nf) (fun f => bsum (seq 0 (n f)) (fun o => F (f, o))).
Proof. unfold orbs. rewrite bsum_flat_map. apply bsum_ext. intros f _. apply bsum_map. Qed.
Lemma orbs2 (F : nat * nat -> nat * nat -> K) : bsum orbs (fun p => bsum orbs (fun q => F p q)) = bsum (list_prod (seq 0 nf) (seq 0 nf)) (fun c => sum2 (n (fst c)) (n (snd c)) (fun p q => F (fst c, p) (snd c, q))).
Proof.
  rewrite orbs_sum, bsum_list_prod. apply bsum_ext. intros f _. cbn [fst snd]. unfold sum2. rewrite (bsum_swap K (seq 0 nf)). apply bsum_ext. intros o _. apply orbs_sum.
Qed.
Lemma gsum1_cells F : gsum1 F = bsum cells1 (blk1 F).
Proof. unfold gsum1, cells1. rewrite bsum_list_prod. apply bsum_ext. intros s _. rewrite orbs2. apply bsum_ext. intros [f g] _. reflexivity. Qed.
Lemma gsum2_cells F : gsum2 F = bsum cells2 (blk2 F).
Proof.
  unfold gsum2, cells2. rewrite bsum_list_prod. apply bsum_ext. intros b _. rewrite bsum_list_prod.
  rewrite (orbs2 (fun p q => bsum orbs (fun r => bsum orbs (fun u => F (X2 b p q r u))))). apply bsum_ext. intros [f1 f2] _. cbn [fst snd].
  transitivity (sum2 (n f1) (n f2) (fun p q => bsum (list_prod (seq 0 nf) (seq 0 nf)) (fun c => sum2 (n (fst c)) (n (snd c)) (fun r u => F (X2 b (f1, p) (f2, q) (fst c, r) (snd c, u)))))).
  { apply sum2_ext. intros p q _ _. apply (orbs2 (fun r u => F (X2 b (f1, p) (f2, q) r u))). }
  rewrite <- sum2_bsum. apply bsum_ext. intros [f3 f4] _. reflexivity.
Qed.
Lemma nodup_prod {A B} (l : list A) (l' : list B) : NoDup l -> NoDup l' -> NoDup (list_prod l l').
Proof.
  intros H H'. induction H as [|a l Ha _ IH]; [constructor|]. cbn. apply NoDup_app_intro; [|exact IH|].
  - apply FinFun.Injective_map_NoDup; [|exact H']. intros x y E. now injection E.
  - intros [x y] I J. apply in_map_iff in I as (z & E & _). injection E as <- <-. apply in_prod_iff in J as [J _]. contradiction.
Qed.
Definition nat_prod_dec {A B} (da : forall x y : A, {x = y} + {x <> y}) (db : forall x y : B, {x = y} + {x <> y}) (x y : A * B) : {x = y} + {x <> y}.
Proof. decide equality. Defined.
Definition c1_dec : forall x y : cell1, {x = y} + {x <> y} := nat_prod_dec Nat.eq_dec (nat_prod_dec Nat.eq_dec Nat.eq_dec).
Definition c2_dec : forall x y : cell2, {x = y} + {x <> y} :=
  nat_prod_dec Nat.eq_dec (nat_prod_dec (nat_prod_dec Nat.eq_dec Nat.eq_dec) (nat_prod_dec Nat.eq_dec Nat.eq_dec)).
Definition cell_of2 (b : nat) (p q r u : nat * nat) : cell2 := (b, ((fst p, fst q), (fst r, fst u))).
(** only the listed blocks are nonzero *)
Lemma gsum_support F P1 P2 : NoDup P1 -> NoDup P2 -> incl P1 cells1 -> incl P2 cells2 ->
  (forall s p q, ~ In (s, (fst p, fst q)) P1 -> F (X1 s p q) = s0) -> (forall b p q r u, ~ In (cell_of2 b p q r u) P2 -> F (X2 b p q r u) = s0) ->
  gsum F = sadd (bsum P1 (blk1 F)) (bsum P2 (blk2 F)).
Proof.
  intros N1 N2 I1 I2 Z1 Z2. unfold gsum. rewrite gsum1_cells, gsum2_cells. f_equal.
  - apply (bsum_support K c1_dec); auto.
    + repeat apply nodup_prod; apply seq_NoDup.
    + intros [s [f g]] _ Hn. cbn [blk1]. apply bsum_0. intros p _. apply bsum_0. intros q _. apply Z1. exact Hn.
  - apply (bsum_support K c2_dec); auto.
    + repeat apply nodup_prod; apply seq_NoDup.
    + intros [b [[f1 f2] [f3 f4]]] _ Hn. cbn [blk2]. apply bsum_0. intros p _. apply bsum_0. intros q _. apply bsum_0. intros r _. apply bsum_0. intros u _. apply Z2. exact Hn.
Qed.
Lemma in_cells1 s f g : s < 2 -> f < nf -> g < nf -> In (s, (f, g)) cells1.
Proof. intros. apply in_prod; [|apply in_prod]; apply in_seq; lia. Qed.
Lemma in_cells2 b f1 f2 f3 f4 : b < 4 -> f1 < nf -> f2 < nf -> f3 < nf -> f4 < nf -> In (b, ((f1, f2), (f3, f4))) cells2.
Proof. intros. repeat apply in_prod; apply in_seq; lia. Qed.
Lemma gsum_ext F G : (forall x, F x = G x) -> gsum F = gsum G.
Proof. intros H. unfold gsum, gsum1, gsum2. f_equal; repeat (apply bsum_ext; intros ? _); apply H. Qed.
Lemma gsum_conj F : sconj (gsum F) = gsum (fun x => sconj (F x)).
Proof.
  unfold gsum, gsum1, gsum2. rewrite sconj_add. f_equal; rewrite bsum_conj; apply bsum_ext; intros s _; rewrite bsum_conj; apply bsum_ext; intros p _; rewrite bsum_conj; apply bsum_ext; intros q _; [reflexivity|].
  rewrite bsum_conj; apply bsum_ext; intros r _; rewrite bsum_conj; apply bsum_ext; intros u _. reflexivity.
Qed.
Lemma gsum_mul_r F c : smul (gsum F) c = gsum (fun x => smul (F x) c).
Proof.
  unfold gsum, gsum1, gsum2. transitivity (sadd (smul (gsum1 F) c) (smul (gsum2 F) c)); [unfold gsum1, gsum2; ring|]. unfold gsum1, gsum2. f_equal; rewrite bsum_mul_r; apply bsum_ext; intros s _; rewrite bsum_mul_r; apply bsum_ext; intros p _; rewrite bsum_mul_r; apply bsum_ext; intros q _; [reflexivity|].
  rewrite bsum_mul_r; apply bsum_ext; intros r _; rewrite bsum_mul_r; apply bsum_ext; intros u _. reflexivity.
Qed.
Lemma gsum_add F G : gsum (fun x => sadd (F x) (G x)) = sadd (gsum F) (gsum G).
Proof.
  assert (E1 : gsum1 (fun x => sadd (F x) (G x)) = sadd (gsum1 F) (gsum1 G)). { unfold gsum1. rewrite <- bsum_add. apply bsum_ext. intros s _. rewrite <- bsum_add. apply bsum_ext. intros p _. apply bsum_add. }
  assert (E2 : gsum2 (fun x => sadd (F x) (G x)) = sadd (gsum2 F) (gsum2 G)). { unfold gsum2. rewrite <- bsum_add. apply bsum_ext. intros b _. rewrite <- bsum_add. apply bsum_ext. intros p _. rewrite <- bsum_add. apply bsum_ext. intros q _. rewrite <- bsum_add. apply bsum_ext. intros r _. apply bsum_add. }
  unfold gsum. rewrite E1, E2. ring.
Qed.
Lemma gsum_0 F : (forall x, F x = s0) -> gsum F = s0.
Proof. intros H. unfold gsum, gsum1, gsum2. rewrite !bsum_0; [ring|..]; intros; repeat (apply bsum_0; intros ? _); apply H. Qed.
Lemma gsum_bsum {A} (l : list A) (F : A -> tix -> K) : gsum (fun x => bsum l (fun a => F a x)) = bsum l (fun a => gsum (F a)).
Proof. induction l as [|a l IH]; [now apply gsum_0|]. cbn [bsum fold_right]. rewrite <- IH. rewrite <- (gsum_add (F a)). apply gsum_ext. intros x. reflexivity. Qed.
(** exchanging rows and columns *)
Lemma gsum_tr F : gsum (fun x => F (tix_tr x)) = gsum F.
Proof.
  unfold gsum, gsum1, gsum2. f_equal; apply bsum_ext; intros s _; cbn [tix_tr].
  - apply bsum_swap.
  - rewrite bsum_swap. apply bsum_ext. intros p _. apply bsum_ext. intros q _. apply bsum_swap.
Qed.
End Sum.
