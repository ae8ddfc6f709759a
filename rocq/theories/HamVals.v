(** The contractions of HamS2Ovlp equal the densities of the row contracted with the coefficients of the operators. *)
From Coq Require Import List NArith ZArith Arith Bool Btauto Lia Sorting.Permutation.
From Verif Require Import Base BaseFacts Star FockSpec FockFacts FockOps ProdFock PermFock LprodSpec LasFock LasElem SignsModel SignsFacts LasSigns ExcSpec CrunchModel CrunchSpec CrunchFacts CrunchRows HamModel HamSum HamRows.
Import ListNotations.
Local Open Scope nat_scope.

Section Tensor.
Context {K : star_ring}.
Add Ring Kr : (sring K).
Notation arr := (@arr K).
Lemma td1 d (a b : arr) rest : tensordot [d] [1] [1] a b rest = bsum (seq 0 d) (fun v => smul (a [v]) (b (rest ++ [v]))).
Proof. unfold tensordot. now rewrite idxs1. Qed.
Lemma td2x d e (a b : arr) rest : tensordot [d; e] [1; 2] [2; 1] a b rest = sum2 e d (fun p q => smul (a [p; q]) (b (rest ++ [q; p]))).
Proof. unfold tensordot. rewrite idxs2. rewrite sum2_swap. reflexivity. Qed.
Lemma td2 d e (a b : arr) rest : tensordot [d; e] [2; 1] [2; 1] a b rest = sum2 d e (fun p q => smul (a [p; q]) (b (rest ++ [p; q]))).
Proof. unfold tensordot. now rewrite idxs2. Qed.
Lemma td3 x y z (a b : arr) rest : tensordot [x; y; z] [3; 2; 1] [3; 2; 1] a b rest = bsum (seq 0 x) (fun s => sum2 y z (fun p q => smul (a [s; p; q]) (b (rest ++ [s; p; q])))).
Proof. unfold tensordot. now rewrite idxs3. Qed.
Lemma td3a x y z (a b : arr) rest : tensordot [x; y; z] [3; 2; 1] [3; 1; 2] a b rest = bsum (seq 0 x) (fun s => sum2 y z (fun p q => smul (a [s; p; q]) (b (rest ++ [s; q; p])))).
Proof. unfold tensordot. now rewrite idxs3. Qed.
Lemma td3b x y z (a b : arr) rest : tensordot [x; y; z] [3; 2; 1] [2; 3; 1] a b rest = bsum (seq 0 x) (fun s => sum2 y z (fun p q => smul (a [s; p; q]) (b (rest ++ [p; s; q])))).
Proof. unfold tensordot. now rewrite idxs3. Qed.
Lemma td4 x y z w (a b : arr) rest : tensordot [x; y; z; w] [4; 3; 2; 1] [4; 3; 2; 1] a b rest = sum4 x y z w (fun p q r u => smul (a [p; q; r; u]) (b (rest ++ [p; q; r; u]))).
Proof. unfold tensordot. now rewrite idxs4. Qed.
(** nested sums *)
Lemma nest22 a b c d (X : nat -> nat -> K) Y : sum2 a b (fun p q => smul (X p q) (sum2 c d (Y p q))) = sum4 a b c d (fun p q r u => smul (X p q) (Y p q r u)).
Proof. unfold sum4. apply sum2_ext. intros p q _ _. apply sum2_mul_l. Qed.
Lemma nest11 a b (X : nat -> K) Y : bsum (seq 0 a) (fun p => smul (X p) (bsum (seq 0 b) (Y p))) = sum2 a b (fun p q => smul (X p) (Y p q)).
Proof. unfold sum2. apply bsum_ext. intros p _. apply bsum_mul_l. Qed.
Lemma nest12 a b c (X : nat -> K) Y : bsum (seq 0 a) (fun p => smul (X p) (sum2 b c (Y p))) = bsum (seq 0 a) (fun p => sum2 b c (fun q r => smul (X p) (Y p q r))).
Proof. apply bsum_ext. intros p _. apply sum2_mul_l. Qed.
Lemma sum4_tr a b c d (F : nat -> nat -> nat -> nat -> K) : sum4 a b c d F = sum4 b a d c (fun q p u r => F p q r u).
Proof. unfold sum4. rewrite sum2_swap. apply sum2_ext. intros q p _ _. apply sum2_swap. Qed.
Lemma sum4_assoc a b c d (F : nat -> nat -> nat -> nat -> K) : bsum (seq 0 a) (fun p => bsum (seq 0 b) (fun q => sum2 c d (F p q))) = sum4 a b c d F.
Proof. reflexivity. Qed.
Lemma nest13 a b c d (X : nat -> K) Y : bsum (seq 0 a) (fun q => smul (X q) (bsum (seq 0 b) (fun x => sum2 c d (Y q x)))) = sum4 a b c d (fun q x y z => smul (X q) (Y q x y z)).
Proof. rewrite <- sum4_assoc. apply bsum_ext. intros q _. rewrite bsum_mul_l. apply bsum_ext. intros x _. apply sum2_mul_l. Qed.
Lemma nest31 a b c d (X : nat -> nat -> nat -> K) Y : bsum (seq 0 a) (fun x => sum2 b c (fun y z => smul (X x y z) (bsum (seq 0 d) (Y x y z)))) = sum4 a b c d (fun x y z p => smul (X x y z) (Y x y z p)).
Proof. rewrite <- sum4_assoc. apply bsum_ext. intros x _. unfold sum2. apply bsum_ext. intros y _. apply bsum_ext. intros z _. apply bsum_mul_l. Qed.
Lemma sum4_sw a b c d (F : nat -> nat -> nat -> nat -> K) : sum4 a b c d F = sum4 b a c d (fun q p r u => F p q r u).
Proof. unfold sum4. apply sum2_swap. Qed.
Lemma sum4_sw2 a b c d (F : nat -> nat -> nat -> nat -> K) : sum4 a b c d F = sum4 a b d c (fun p q u r => F p q r u).
Proof. unfold sum4. apply sum2_ext. intros. apply sum2_swap. Qed.
Lemma td11 a b (H P h : arr) rest : tensordot [a] [1] [1] H (tensordot [b] [1] [1] P h) rest = sum2 a b (fun q p => smul (H [q]) (smul (P [p]) (h (rest ++ [q; p])))).
Proof.
  rewrite td1. rewrite <- nest11. apply bsum_ext. intros q _. apply (f_equal (smul _)). rewrite td1. apply bsum_ext. intros p _. now rewrite <- app_assoc.
Qed.
Lemma td211 a b c d (D H P h : arr) : tensordot [a; b] [2; 1] [2; 1] D (tensordot [c] [1] [1] H (tensordot [d] [1] [1] P h)) [] =
  sum4 a b c d (fun r u q p => smul (D [r; u]) (smul (H [q]) (smul (P [p]) (h [r; u; q; p])))).
Proof. rewrite td2, <- nest22. apply sum2_ext. intros r u _ _. now rewrite td11. Qed.
Lemma td211x a b c d (D H P h : arr) : tensordot [b; a] [1; 2] [2; 1] D (tensordot [c] [1] [1] H (tensordot [d] [1] [1] P h)) [] =
  sum4 a b c d (fun r u q p => smul (D [r; u]) (smul (H [q]) (smul (P [p]) (h [u; r; q; p])))).
Proof. rewrite td2x, <- nest22. apply sum2_ext. intros r u _ _. now rewrite td11. Qed.
Lemma bsum_mul_l' {A} (l : list A) (c : K) f : smul c (bsum l f) = bsum l (fun x => smul c (f x)).
Proof. apply bsum_mul_l. Qed.
Lemma delta2 m (c : K) (F : nat -> nat -> K) : sum2 m m (fun p q => smul (if p =? q then c else s0) (F p q)) = smul c (bsum (seq 0 m) (fun p => F p p)).
Proof.
  unfold sum2. rewrite bsum_mul_l'. apply bsum_ext. intros p Hp. rewrite (bsum_single K (seq 0 m) _ p).
  - now rewrite Nat.eqb_refl.
  - apply seq_NoDup.
  - exact Hp.
  - intros q _ Hq. rewrite (proj2 (Nat.eqb_neq p q)) by congruence. ring.
Qed.
Lemma delta4 a c (k : K) (F : nat -> nat -> nat -> nat -> K) : sum4 a a c c (fun p q r u => smul (if (p =? q) && (r =? u) then k else s0) (F p q r u)) = smul k (bsum (seq 0 a) (fun p => bsum (seq 0 c) (fun r => F p p r r))).
Proof.
  unfold sum4. rewrite (sum2_ext _ _ _ (fun p q => smul (if p =? q then s1 else s0) (smul k (bsum (seq 0 c) (fun r => F p q r r))))).
  - rewrite delta2. rewrite (bsum_mul_l' (seq 0 a) k). ring.
  - intros p q _ _. rewrite <- (delta2 c k (fun r u => F p q r u)). rewrite sum2_mul_l. apply sum2_ext. intros r u _ _. destruct (p =? q), (r =? u); cbn [andb]; ring.
Qed.
Lemma delta4x a (k : K) (F : nat -> nat -> nat -> nat -> K) : sum4 a a a a (fun p q r u => smul (if (p =? u) && (r =? q) then k else s0) (F p q r u)) = smul k (bsum (seq 0 a) (fun p => bsum (seq 0 a) (fun r => F p r r p))).
Proof. rewrite sum4_ex2. apply (delta4 a a k (fun p u r q => F p q r u)). Qed.
Lemma sum4_0 a b c d (F : nat -> nat -> nat -> nat -> K) : (forall p q r u, F p q r u = s0) -> sum4 a b c d F = s0.
Proof. intros H. unfold sum4, sum2. apply bsum_0. intros p _. apply bsum_0. intros q _. apply bsum_0. intros r _. apply bsum_0. intros u _. apply H. Qed.
Lemma sum2_0 a b (F : nat -> nat -> K) : (forall p q, F p q = s0) -> sum2 a b F = s0.
Proof. intros H. unfold sum2. apply bsum_0. intros p _. apply bsum_0. intros q _. apply H. Qed.
End Tensor.

(** equality of orbitals *)
Definition oeq (p q : nat * nat) : bool := (fst p =? fst q) && (snd p =? snd q).
Lemma oeq_sym p q : oeq p q = oeq q p.
Proof. unfold oeq. now rewrite (Nat.eqb_sym (fst p)), (Nat.eqb_sym (snd p)). Qed.

Section HVals.
Variables (K : star_ring) (nf : nat) (n : nat -> nat).
Add Ring Kr2 : (sring K).
Variables (V : nat -> nat -> nat -> vec K) (ne : nat -> nat -> nat * nat) (nl : nat -> nat -> nat).
Variables (ints : nat -> @fmats K) (uroot : nat -> nat -> nat) (nelec_rf : nat -> list nat) (nz : K -> bool).
Hypothesis H8 : nf <= 8.
Hypothesis Hne : forall f a i, f < nf -> i < nl f a -> has_nelec K (n f) (ne f a) (V f a i).
Hypothesis Hex : forall f, f < nf -> exact K n V ne nl f (ints f).
Hypothesis Hfit : forall f a, f < nf -> 0 < nl f a -> fst (ne f a) <= n f /\ snd (ne f a) <= n f.
Hypothesis Hnz : nz s0 = false.
Variables (half : K) (h1 : nat -> nat * nat -> nat * nat -> K) (h2 : nat * nat -> nat * nat -> nat * nat -> nat * nat -> K).
Hypothesis Hhalf : sadd half half = s1.
Hypothesis Hpair : forall p q r u, h2 p q r u = h2 r u p q.
Hypothesis Htr : forall p q r u, h2 p q r u = h2 q p u r.
(** coefficients of the Hamiltonian: the code pairs the integral of (q,p) with the operators p' q *)
Definition hx (x : tix) : K := match x with X1 s p q => h1 s q p | X2 b p q r u => smul half (h2 q p u r) end.
(** coefficients of the squared spin *)
Definition sx (x : tix) : K :=
  match x with
  | X1 s p q => if oeq p q then smul (three (K := K)) (quarter half) else s0
  | X2 b p q r u =>
    if (b =? 0) || (b =? 3) then if oeq p q && oeq r u then quarter half else s0
    else ssub (if oeq p q && oeq r u then sopp (quarter half) else s0) (if oeq p u && oeq r q then half else s0)
  end.
Lemma hx_pair : pairsym K hx.
Proof. intros b p q r u _. cbn. f_equal. apply Hpair. Qed.
Lemma sx_pair : pairsym K sx.
Proof.
  intros b p q r u Hb. cbn. rewrite (andb_comm (oeq p q)), (andb_comm (oeq p u)). destruct b as [|[|[|[|]]]]; try lia; reflexivity.
Qed.
Variables (bra ket : nat * list nat).
Hypothesis Hbra : nelec_rf (fst bra) = map (CrunchRows.tot ne uroot (fst bra)) (seq 0 nf).
Hypothesis Hket : nelec_rf (fst ket) = map (CrunchRows.tot ne uroot (fst ket)) (seq 0 nf).
Notation A := (fun f => loc uroot f bra).
Notation B := (fun f => loc uroot f ket).
Notation el := (el K n V).
Notation Lx fr x := (Lel K nf n V ne fr A B (xops x)).
Notation row_is := (row_is K nf n V ne uroot bra ket).
Notation conn := (conn nf ne nl uroot bra ket).
Notation target := (target K nf n V ne uroot bra ket).
Notation B2 := (B2 K nf n V ne uroot bra ket).
Notation blkx := (blkx K nf n V ne uroot bra ket).
Definition s2val (o : option K) : K := match o with Some v => v | None => s0 end.
Definition val_is (fr : list nat) (r : res (@opval K)) : Prop := exists v, r = Ok v /\ fst v = target hx fr /\ s2val (snd v) = target sx fr.
Notation pA := (pb ne A).
Notation pB := (pb ne B).
(** the facts of [CrunchRows] for this pair of states *)
Lemma loc_st' fr c0 a0 f : conn fr c0 a0 -> In f fr -> f < nf /\ st_in nl f (A f) /\ st_in nl f (B f).
Proof. intros; eapply CrunchRows.loc_st; eassumption. Qed.
Lemma same_ne' fr c0 a0 f : conn fr c0 a0 -> In f fr -> moves c0 a0 f 0 = 0%Z -> moves c0 a0 f 1 = 0%Z -> ne f (fst (A f)) = ne f (fst (B f)).
Proof. intros; eapply CrunchRows.same_ne; eassumption. Qed.
Lemma ch' fr c0 a0 f : conn fr c0 a0 -> In f fr ->
  Z.of_nat (fst (ne f (fst (A f)))) = (Z.of_nat (fst (ne f (fst (B f)))) + moves c0 a0 f 0)%Z /\ Z.of_nat (snd (ne f (fst (A f)))) = (Z.of_nat (snd (ne f (fst (B f)))) + moves c0 a0 f 1)%Z.
Proof. intros; eapply CrunchRows.ch; eassumption. Qed.
Lemma get_h' f s : f < nf -> st_in nl f (A f) -> st_in nl f (B f) -> s < 2 -> fewer ne f (A f) (B f) (1 - s) s ->
  exists T, get_1_h ints uroot f bra ket s = Ok T /\ forall p, p < n f -> T [p] = el f (A f) (B f) [an s (f, p)].
Proof. intros; eapply CrunchRows.get_h; eassumption. Qed.
Lemma get_p' f s : f < nf -> st_in nl f (A f) -> st_in nl f (B f) -> s < 2 -> fewer ne f (B f) (A f) (1 - s) s ->
  exists T, get_1_p ints uroot f bra ket s = Ok T /\ forall p, p < n f -> T [p] = el f (A f) (B f) [cr s (f, p)].
Proof. intros; eapply CrunchRows.get_p; eassumption. Qed.
Lemma get_hh' f c : f < nf -> st_in nl f (A f) -> st_in nl f (B f) -> c < 3 -> fewer ne f (A f) (B f) (2 - c) c ->
  exists T, get_1_hh ints uroot f bra ket c = Ok T /\ forall p q, p < n f -> q < n f -> T [p; q] = el f (A f) (B f) [an (c - c / 2) (f, p); an (c / 2) (f, q)].
Proof. intros; eapply CrunchRows.get_hh; eassumption. Qed.
Lemma get_pp' f c : f < nf -> st_in nl f (A f) -> st_in nl f (B f) -> c < 3 -> fewer ne f (B f) (A f) (2 - c) c ->
  exists T, get_1_pp ints uroot f bra ket c = Ok T /\ forall p q, p < n f -> q < n f -> T [p; q] = el f (A f) (B f) [cr (c / 2) (f, p); cr (c - c / 2) (f, q)].
Proof. intros; eapply CrunchRows.get_pp; eassumption. Qed.
Lemma get_phh' f s : f < nf -> st_in nl f (A f) -> st_in nl f (B f) -> s < 2 -> fewer ne f (A f) (B f) (1 - s) s ->
  exists T, get_1_phh ints uroot f bra ket s = Ok T /\ forall t p q h, t < 2 -> p < n f -> q < n f -> h < n f -> T [t; p; q; h] = el f (A f) (B f) [cr t (f, p); an t (f, q); an s (f, h)].
Proof. intros; eapply CrunchRows.get_phh; eassumption. Qed.
Lemma get_pph' f s : f < nf -> st_in nl f (A f) -> st_in nl f (B f) -> s < 2 -> fewer ne f (B f) (A f) (1 - s) s ->
  exists T, get_1_pph ints uroot f bra ket s = Ok T /\ forall t h p q, t < 2 -> h < n f -> p < n f -> q < n f -> T [t; h; p; q] = el f (A f) (B f) [cr s (f, h); cr t (f, p); an t (f, q)].
Proof. intros; eapply CrunchRows.get_pph; eassumption. Qed.
Lemma get_sm' f : f < nf -> st_in nl f (A f) -> st_in nl f (B f) -> fst (ne f (fst (B f))) = fst (ne f (fst (A f))) + 1 -> snd (ne f (fst (A f))) = snd (ne f (fst (B f))) + 1 ->
  exists T, get_1_sm ints uroot f bra ket = Ok T /\ forall p q, p < n f -> q < n f -> T [p; q] = el f (A f) (B f) [cr 1 (f, p); an 0 (f, q)].
Proof. intros; eapply CrunchRows.get_sm; eassumption. Qed.
Lemma get_sp' f : f < nf -> st_in nl f (A f) -> st_in nl f (B f) -> fst (ne f (fst (A f))) = fst (ne f (fst (B f))) + 1 -> snd (ne f (fst (B f))) = snd (ne f (fst (A f))) + 1 ->
  exists T, get_1_sp ints uroot f bra ket = Ok T /\ forall p q, p < n f -> q < n f -> T [p; q] = el f (A f) (B f) [cr 0 (f, p); an 1 (f, q)].
Proof. intros; eapply CrunchRows.get_sp; eassumption. Qed.
Lemma get_dm1' f : f < nf -> st_in nl f (A f) -> st_in nl f (B f) -> ne f (fst (A f)) = ne f (fst (B f)) ->
  exists T, get_1_dm1 ints uroot f bra ket = Ok T /\ forall s p q, s < 2 -> p < n f -> q < n f -> T [s; p; q] = el f (A f) (B f) (xops (X1 s (f, p) (f, q))).
Proof. intros; eapply CrunchRows.get_dm1; eassumption. Qed.
Lemma get_dm2' f : f < nf -> st_in nl f (A f) -> st_in nl f (B f) -> ne f (fst (A f)) = ne f (fst (B f)) ->
  exists T, get_1_dm2 ints uroot f bra ket = Ok T /\ forall c p q r u, c < 4 -> p < n f -> q < n f -> r < n f -> u < n f -> T [c; p; q; r; u] = el f (A f) (B f) (xops (X2 c (f, p) (f, q) (f, r) (f, u))).
Proof. intros; eapply CrunchRows.get_dm2; eassumption. Qed.
Lemma des_bra' fr f : (forall f, In f fr -> f < nf) -> In f fr -> des nelec_rf bra fr f = Ok (abv nf (fun g => mem g fr) pA f).
Proof. intros; eapply CrunchRows.des_bra; eassumption. Qed.
Lemma des_ket' fr f : (forall f, In f fr -> f < nf) -> In f fr -> des nelec_rf ket fr f = Ok (abv nf (fun g => mem g fr) pB f).
Proof. intros; eapply CrunchRows.des_ket; eassumption. Qed.
Lemma abvA' fr c0 a0 x f : conn fr c0 a0 -> xspins x -> (forall f s, moves (xcre x) (xann x) f s = moves c0 a0 f s) -> (forall g, In g (xfr x) -> In g fr) ->
  abv nf (fun g => mem g fr) pA f = xorb (abv nf (fun g => mem g fr) pB f) (parity (Nat.ltb f) (xfr x)).
Proof. intros; eapply CrunchRows.abvA; eassumption. Qed.
(** terms that differ by a multiple of 1 - 2/2 *)
Lemma by_half (Z X Y : K) : X = sadd Y (smul (ssub s1 (sadd half half)) Z) -> X = Y.
Proof. intros ->. rewrite Hhalf. ring. Qed.
Lemma two_sum4 a b c d F : two K (sum4 a b c d F) = sum4 a b c d (fun p q r u => sadd (F p q r u) (F p q r u)).
Proof. unfold two. symmetry. apply sum4_add. Qed.
Lemma sum4_sub a b c d (F G : nat -> nat -> nat -> nat -> K) : ssub (sum4 a b c d F) (sum4 a b c d G) = sum4 a b c d (fun p q r u => ssub (F p q r u) (G p q r u)).
Proof.
  transitivity (sadd (sum4 a b c d F) (smul (sopp s1) (sum4 a b c d G))); [ring|]. rewrite sum4_mul_l, <- sum4_add. apply sum4_ext. intros. ring.
Qed.
Lemma add0r (x : K) : sadd x s0 = x.
Proof. ring. Qed.
Lemma sub0l (x : K) : ssub s0 x = smul (sopp s1) x.
Proof. ring. Qed.
Ltac join := rewrite ?add0r, ?sub0l; repeat (rewrite ?two_sum4, ?sum4_sub, ?sum4_mul_l; rewrite <- ?sum4_add).
Ltac tds := rewrite ?td1, ?td2, ?td2x, ?td3, ?td3a, ?td3b, ?td4.

Lemma val_2d i j : i <> j -> conn [i; j] [] [] -> val_is [i; j] (ham_2d half n ints uroot h2 bra ket i j).
Proof.
  intros N C. destruct (loc_st' _ _ _ i C ltac:(now left)) as (Li & SA & SB). destruct (loc_st' _ _ _ j C ltac:(right; now left)) as (Lj & SA' & SB').
  pose proof (same_ne' _ _ _ i C ltac:(now left) eq_refl eq_refl) as Ei. pose proof (same_ne' _ _ _ j C ltac:(right; now left) eq_refl eq_refl) as Ej.
  destruct (get_dm1' i Li SA SB Ei) as (T1 & G1 & V1). destruct (get_dm1' j Lj SA' SB' Ej) as (T2 & G2 & V2).
  pose proof (row_2d K nf n V ne nl ints uroot H8 Hne Hex bra ket i j N C) as Hr.
  unfold ham_2d. rewrite G1. cbn [bind]. rewrite G2. cbn [bind]. eexists. split; [reflexivity|]. cbn [fst snd s2val].
  rewrite (tgt_2d K nf n V ne ints uroot H8 bra ket hx i j hx_pair Li Lj N Hr), (tgt_2d K nf n V ne ints uroot H8 bra ket sx i j sx_pair Li Lj N Hr).
  assert (Ca : forall b p q r u, b < 4 -> p < n i -> q < n i -> r < n j -> u < n j -> Lx [i; j] (X2 b (i, p) (i, q) (j, r) (j, u)) = smul (T1 [b / 2; p; q]) (T2 [b mod 2; r; u])).
  { intros b p q r u Hb Hp Hq Hr' Hu. rewrite can_2d by assumption. assert (Q : b / 2 < 2 /\ b mod 2 < 2) by (destruct b as [|[|[|[|]]]]; cbn; lia). rewrite V1, V2 by tauto. reflexivity. }
  cbn [bsum fold_right]. unfold HamRows.B2, HamRows.blkx.
  split.
  - assert (E0 : forall s h, tensordot [n j; n j] [1; 2] [2; 1] (sub s (to_cs T2)) (tensordot [n i; n i] [1; 2] [2; 1] (sub s (to_cs T1)) h) [] =
      sum4 (n i) (n i) (n j) (n j) (fun p q r u => smul (smul (to_cs T1 [s; p; q]) (to_cs T2 [s; r; u])) (h [u; r; q; p]))).
    { intros s h. rewrite td2x. rewrite (sum2_ext _ _ _ (fun r u => smul (to_cs T2 [s; r; u]) (sum2 (n i) (n i) (fun p q => smul (to_cs T1 [s; p; q]) (h [u; r; q; p]))))) by (intros; rewrite td2x; reflexivity).
      rewrite nest22, sum4_pair. apply sum4_ext. intros. ring. }
    rewrite !E0. join. apply sum4_ext. intros p q r u Hp Hq Hr' Hu. rewrite !Ca by (assumption || lia). unfold to_cs, ascale, tpose, ham4. cbn. rewrite (Hpair (j, u)).
    apply (by_half (smul (smul (sadd (T1 [0; p; q]) (T1 [1; p; q])) (sadd (T2 [0; r; u]) (T2 [1; r; u]))) (h2 (i, q) (i, p) (j, u) (j, r)))). ring.
  - join. unfold trace2, sub, to_cs. cbn [hd tl Nat.eqb].
    transitivity (sum4 (n i) (n i) (n j) (n j) (fun p q r u => smul (if (p =? q) && (r =? u) then half else s0) (smul (ssub (T1 [0; p; q]) (T1 [1; p; q])) (ssub (T2 [0; r; u]) (T2 [1; r; u]))))).
    + rewrite delta4. f_equal. rewrite (Rmul_comm (sring K)). rewrite bsum_mul_r. apply bsum_ext. intros p _. apply bsum_mul_l.
    + apply sum4_ext. intros p q r u Hp Hq Hr' Hu. rewrite !Ca by (assumption || lia). unfold sx, oeq, quarter. cbn [fst snd]. rewrite !Nat.eqb_refl, (proj2 (Nat.eqb_neq i j) N). cbn.
      destruct (p =? q), (r =? u); cbn; try ring.
      apply (by_half (smul half (smul (ssub (T1 [0; p; q]) (T1 [1; p; q])) (ssub (T2 [0; r; u]) (T2 [1; r; u]))))). ring.
Qed.
Lemma val_1d i : conn [i] [] [] -> val_is [i] (ham_1d half n ints uroot h1 h2 bra ket i).
Proof.
  intros C. destruct (loc_st' _ _ _ i C ltac:(now left)) as (Li & SA & SB). pose proof (same_ne' _ _ _ i C ltac:(now left) eq_refl eq_refl) as Ei.
  destruct (get_dm1' i Li SA SB Ei) as (T1 & G1 & V1). destruct (get_dm2' i Li SA SB Ei) as (T2 & G2 & V2).
  pose proof (row_1d K nf n V ne nl ints uroot H8 Hne Hex bra ket i C) as Hr.
  unfold ham_1d. rewrite G1. cbn [bind]. rewrite G2. cbn [bind]. eexists. split; [reflexivity|]. cbn [fst snd s2val].
  rewrite (tgt_1d K nf n V ne ints uroot H8 bra ket hx i Li Hr), (tgt_1d K nf n V ne ints uroot H8 bra ket sx i Li Hr).
  assert (Ca1 : forall s p q, s < 2 -> p < n i -> q < n i -> Lx [i] (X1 s (i, p) (i, q)) = T1 [s; p; q]) by (intros; rewrite can_1_1 by assumption; rewrite V1 by assumption; reflexivity).
  assert (Ca2 : forall b p q r u, b < 4 -> p < n i -> q < n i -> r < n i -> u < n i -> Lx [i] (X2 b (i, p) (i, q) (i, r) (i, u)) = T2 [b; p; q; r; u]) by (intros; rewrite can_1_2 by assumption; rewrite V2 by assumption; reflexivity).
  split; [f_equal|].
  - rewrite td3. change (seq 0 2) with [0; 1]. apply bsum_ext. intros s Hs. rewrite sum2_swap. apply sum2_ext. intros p q Hp Hq. rewrite Ca1 by (auto; cbn in Hs; lia). unfold tpose, ham2. cbn. ring.
  - unfold HamRows.B2. rewrite sum4_bsum, td4. rewrite (Rmul_comm (sring K)), sum4_mul_l, sum4_tr. apply sum4_ext. intros p q r u Hp Hq Hr' Hu. cbn [bsum fold_right]. rewrite !Ca2 by (assumption || lia).
    unfold tpose, ham4, sum0. cbn. ring.
  - assert (Q1 : forall s, s < 2 -> sum2 (n i) (n i) (fun p q => smul (sx (X1 s (i, p) (i, q))) (Lx [i] (X1 s (i, p) (i, q)))) = smul (smul (three (K := K)) (quarter half)) (bsum (seq 0 (n i)) (fun p => T1 [s; p; p]))).
    { intros s Hs. rewrite <- (delta2 (n i) _ (fun p q => T1 [s; p; q])). apply sum2_ext. intros p q Hp Hq. rewrite Ca1 by assumption. unfold sx, oeq. cbn [fst snd]. now rewrite Nat.eqb_refl. }
    assert (Q2 : forall b, b = 0 \/ b = 3 -> B2 sx [i] b i i i i = smul (quarter half) (bsum (seq 0 (n i)) (fun p => bsum (seq 0 (n i)) (fun r => T2 [b; p; p; r; r])))).
    { intros b Hb. rewrite <- (delta4 (n i) (n i) _ (fun p q r u => T2 [b; p; q; r; u])). unfold HamRows.B2. apply sum4_ext. intros p q r u Hp Hq Hr' Hu. rewrite Ca2 by (assumption || lia). unfold sx, oeq. cbn [fst snd].
      rewrite Nat.eqb_refl. destruct Hb as [-> | ->]; reflexivity. }
    assert (Q3 : forall b, b = 1 \/ b = 2 -> B2 sx [i] b i i i i = ssub (smul (sopp (quarter half)) (bsum (seq 0 (n i)) (fun p => bsum (seq 0 (n i)) (fun r => T2 [b; p; p; r; r]))))
                                                                    (smul half (bsum (seq 0 (n i)) (fun p => bsum (seq 0 (n i)) (fun r => T2 [b; p; r; r; p]))))).
    { intros b Hb. rewrite <- (delta4 (n i) (n i) _ (fun p q r u => T2 [b; p; q; r; u])), <- (delta4x (n i) _ (fun p q r u => T2 [b; p; q; r; u])), sum4_sub. unfold HamRows.B2. apply sum4_ext.
      intros p q r u Hp Hq Hr' Hu. rewrite Ca2 by (assumption || lia). unfold sx, oeq. cbn [fst snd]. rewrite Nat.eqb_refl. destruct Hb as [-> | ->]; cbn [Nat.eqb Datatypes.orb Datatypes.andb]; ring. }
    change (seq 0 2) with [0; 1]. cbn [bsum fold_right]. rewrite !Q1, (Q2 0), (Q2 3), (Q3 1), (Q3 2) by auto. unfold trace2, sub, tpose, aadd, sub. cbn [map seq length nth axis index_of Nat.eqb option_map].
    rewrite (bsum_ext K (seq 0 (n i)) (fun p => bsum (seq 0 (n i)) (fun q => sadd (T2 [1; p; q; q; p]) (T2 [2; p; q; q; p]))) (fun p => sadd (bsum (seq 0 (n i)) (fun q => T2 [1; p; q; q; p])) (bsum (seq 0 (n i)) (fun q => T2 [2; p; q; q; p])))) by (intros; apply bsum_add).
    rewrite bsum_add. ring.
Qed.
Ltac mvs H := unfold moves in H; cbn [times fst snd] in H;
  repeat (rewrite ?Nat.eqb_refl in H; match type of H with context [?a =? ?b] => replace (a =? b) with false in H by (symmetry; apply Nat.eqb_neq; congruence) end); rewrite ?Nat.eqb_refl in H; cbn in H.
Lemma sgn_sg b (x : K) : smul (sgn b) x = sg K b x.
Proof. destruct b; cbn; ring. Qed.
Lemma B2_0 g fr b f1 f2 f3 f4 : (forall p q r u, g (X2 b (f1, p) (f2, q) (f3, r) (f4, u)) = s0) -> B2 g fr b f1 f2 f3 f4 = s0.
Proof. intros H. apply sum4_0. intros. rewrite H. ring. Qed.
Lemma blkx_0 g fr b f1 f2 f3 f4 : (forall p q r u, g (X2 b (f1, p) (f4, u) (f3, r) (f2, q)) = s0) -> blkx g fr b f1 f2 f3 f4 = s0.
Proof. intros H. apply sum4_0. intros. rewrite H. ring. Qed.
Lemma oeq_ne f g p q : f <> g -> oeq (f, p) (g, q) = false.
Proof. intros H. unfold oeq. cbn. now rewrite (proj2 (Nat.eqb_neq f g) H). Qed.
Ltac sx0 := intros; unfold sx; repeat match goal with |- context [oeq (?f, ?p) (?g, ?q)] => rewrite (oeq_ne f g p q) by congruence end; cbn [Datatypes.andb]; rewrite ?andb_false_r; cbv iota;
  repeat match goal with |- context [if ?c then _ else _] => destruct c end; ring.

Lemma val_1s i j : i <> j -> conn [i; j] [(i, 0); (j, 1)] [(i, 1); (j, 0)] -> val_is [i; j] (ham_1s n ints uroot h2 bra ket i j).
Proof.
  intros N C. destruct (loc_st' _ _ _ i C ltac:(cbn; auto)) as (Li & SA & SB). destruct (loc_st' _ _ _ j C ltac:(cbn; auto)) as (Lj & SA' & SB').
  destruct (ch' _ _ _ i C ltac:(cbn; auto)) as [M0 M1]. destruct (ch' _ _ _ j C ltac:(cbn; auto)) as [M0' M1']. mvs M0; mvs M1; mvs M0'; mvs M1'.
  destruct (get_sp' i Li SA SB) as (Tp & Gp & Vp); [cbn in *; lia..|]. destruct (get_sm' j Lj SA' SB') as (Tm & Gm & Vm); [cbn in *; lia..|].
  pose proof (row_1s K nf n V ne nl ints uroot H8 Hne Hex bra ket i j N C) as Hr.
  unfold ham_1s. rewrite Gp, Gm. cbn [bind]. eexists. split; [reflexivity|]. cbn [fst snd s2val].
  rewrite (tgt_1s K nf n V ne ints uroot H8 bra ket hx i j hx_pair Li Lj N Hr), (tgt_1s K nf n V ne ints uroot H8 bra ket sx i j sx_pair Li Lj N Hr).
  assert (Ca : forall p q r u, p < n i -> q < n j -> r < n j -> u < n i -> Lx [i; j] (X2 1 (i, p) (j, q) (j, r) (i, u)) = sopp (smul (Tp [p; u]) (Tm [r; q]))).
  { intros p q r u Hp Hq Hr' Hu. rewrite can_1s by assumption. rewrite Vp, Vm by assumption. reflexivity. }
  unfold HamRows.B2. split.
  - join. rewrite td2. rewrite (sum2_ext _ _ _ (fun r q => smul (Tm [r; q]) (sum2 (n i) (n i) (fun p u => smul (Tp [p; u]) (h2 (j, r) (i, u) (i, p) (j, q)))))) by (intros; rewrite td2; reflexivity).
    rewrite nest22, sum4_pair, sum4_ex2, sum4_mul_l. apply sum4_ext. intros p q r u Hp Hq Hr' Hu. rewrite Ca by assumption. unfold hx. cbn.
    rewrite (Hpair (j, q)), (Htr (i, u)).
    apply (by_half (sopp (smul (smul (Tm [r; q]) (Tp [p; u])) (h2 (j, r) (i, u) (i, p) (j, q))))). ring.
  - join. rewrite sum4_ex2.
    transitivity (sum4 (n i) (n i) (n j) (n j) (fun p q r u => smul (if (p =? q) && (r =? u) then s1 else s0) (smul (Tp [p; q]) (Tm [r; u])))).
    + rewrite delta4. unfold trace2, sgn.
      transitivity (smul (bsum (seq 0 (n i)) (fun p => Tp [p; p])) (bsum (seq 0 (n j)) (fun p => Tm [p; p]))); [ring|]. rewrite bsum_mul_r.
      transitivity (bsum (seq 0 (n i)) (fun p => bsum (seq 0 (n j)) (fun r => smul (Tp [p; p]) (Tm [r; r])))); [apply bsum_ext; intros p _; apply bsum_mul_l | ring].
    + apply sum4_ext. intros p u r q Hp Hu Hr' Hq. rewrite Ca by assumption. unfold sx, oeq. cbn [fst snd]. rewrite !Nat.eqb_refl, (proj2 (Nat.eqb_neq i j) N). cbn [Nat.eqb Datatypes.orb Datatypes.andb].
      destruct (p =? u), (r =? q); cbn [Datatypes.andb]; try ring. apply (by_half (smul (Tp [p; u]) (Tm [r; q]))). ring.
Qed.

Ltac xcbn := cbn [xfr xops map opfrag cr an fst snd rsign] in *.
Ltac par := rewrite ?parity_cons; repeat match goal with |- context [parity ?p (@nil nat)] => change (parity p (@nil nat)) with false end; rewrite ?Nat.ltb_irrefl.
Lemma val_1c i j s : i <> j -> s < 2 -> conn [i; j] [(i, s)] [(j, s)] -> val_is [i; j] (ham_1c n ints uroot nelec_rf h1 h2 bra ket i j s).
Proof.
  intros N Hs C. destruct (loc_st' _ _ _ i C ltac:(now left)) as (Li & SA & SB). destruct (loc_st' _ _ _ j C ltac:(right; now left)) as (Lj & SA' & SB').
  destruct (ch' _ _ _ i C ltac:(now left)) as [M0 M1]. destruct (ch' _ _ _ j C ltac:(right; now left)) as [M0' M1'].
  assert (F1 : fewer ne i (B i) (A i) (1 - s) s) by (mvs M0; mvs M1; unfold fewer; destruct s as [|[|]]; [| |lia]; cbn in *; lia).
  assert (F2 : fewer ne j (A j) (B j) (1 - s) s) by (mvs M0'; mvs M1'; unfold fewer; destruct s as [|[|]]; [| |lia]; cbn in *; lia).
  destruct (get_p' i s Li SA SB Hs F1) as (Tp & Gp & Vp). destruct (get_h' j s Lj SA' SB' Hs F2) as (Th & Gh & Vh).
  destruct (get_pph' i s Li SA SB Hs F1) as (Tpph & Gpph & Vpph). destruct (get_phh' j s Lj SA' SB' Hs F2) as (Tphh & Gphh & Vphh).
  assert (Fr : forall f, In f [i; j] -> f < nf) by (intros f [<-|[<-|[]]]; assumption).
  pose (fac := xorb (abv nf (fun g => mem g [i; j]) pA i) (abv nf (fun g => mem g [i; j]) pB j)).
  assert (Fac : fac = xorb (xorb (abv nf (fun g => mem g [i; j]) pB i) (abv nf (fun g => mem g [i; j]) pB j)) (i <? j)).
  { unfold fac. rewrite (abvA' _ _ _ (X1 s (i, 0) (j, 0)) i C); [|exact Hs|reflexivity|cbn; intuition]. unfold xfr. xcbn. par. btauto. }
  pose proof (row_1c K nf n V ne nl ints uroot nelec_rf H8 Hne Hex bra ket Hbra Hket i j s N Hs C) as Hr.
  unfold ham_1c. rewrite des_bra' by (try exact Fr; cbn; auto). cbn [bind]. rewrite des_ket' by (try exact Fr; cbn; auto). cbn [bind]. rewrite Gp. cbn [bind]. rewrite Gpph. cbn [bind]. rewrite Gh. cbn [bind]. rewrite Gphh. cbn [bind].
  eexists. split; [reflexivity|]. cbn [fst snd s2val]. fold fac.
  rewrite (tgt_1c K nf n V ne ints uroot nelec_rf H8 bra ket hx i j s hx_pair Li Lj N Hs Hr), (tgt_1c K nf n V ne ints uroot nelec_rf H8 bra ket sx i j s sx_pair Li Lj N Hs Hr).
  assert (Ca : forall p q, p < n i -> q < n j -> Lx [i; j] (X1 s (i, p) (j, q)) = smul (sgn fac) (smul (Tp [p]) (Th [q]))) by (intros; rewrite can_1c_1, <- Fac, <- Vp, <- Vh, sgn_sg by assumption; reflexivity).
  assert (Ci : forall t p q r u, t < 2 -> p < n i -> q < n j -> r < n i -> u < n i -> Lx [i; j] (X2 (s * 2 + t) (i, p) (j, q) (i, r) (i, u)) = smul (sgn fac) (smul (Tpph [t; p; r; u]) (Th [q])))
    by (intros; rewrite can_1c_i, <- Fac, <- Vpph, <- Vh, sgn_sg by assumption; reflexivity).
  assert (Cj : forall t p q r u, t < 2 -> p < n i -> q < n j -> r < n j -> u < n j -> Lx [i; j] (X2 (s * 2 + t) (i, p) (j, q) (j, r) (j, u)) = smul (sgn fac) (smul (Tp [p]) (Tphh [t; r; u; q])))
    by (intros; rewrite can_1c_j, <- Fac, <- Vphh, <- Vp, sgn_sg by assumption; reflexivity).
  cbn [bsum fold_right]. split.
  - rewrite !(Rdistr_l (sring K)) || idtac. transitivity (sadd (smul (sgn fac) (tensordot [n j] [1] [1] Th (tensordot [n i] [1] [1] Tp (sub s (ham2 h1 j i))) []))
      (sadd (smul (sgn fac) (tensordot [n j] [1] [1] Th (tensordot [n i; n i; n i] [3; 2; 1] [3; 1; 2] (sum0 2 Tpph) (ham4 h2 j i i i)) []))
            (smul (sgn fac) (tensordot [n j; n j; n j] [3; 2; 1] [2; 3; 1] (sum0 2 Tphh) (tensordot [n i] [1] [1] Tp (ham4 h2 j j j i)) [])))); [ring|].
    f_equal; [|f_equal].
    + rewrite td11, sum2_mul_l, sum2_swap. apply sum2_ext. intros p q Hp Hq. rewrite Ca by assumption. unfold sub, ham2. cbn. ring.
    + unfold HamRows.B2. join. rewrite td1.
      rewrite (bsum_ext K _ _ (fun q => smul (Th [q]) (bsum (seq 0 (n i)) (fun x => sum2 (n i) (n i) (fun y z => smul (sum0 2 Tpph [x; y; z]) (ham4 h2 j i i i [q; x; z; y])))))) by (intros; rewrite td3a; reflexivity).
      rewrite nest13, sum4_sw, sum4_mul_l. apply sum4_ext. intros p q r u Hp Hq Hr' Hu. rewrite !Ci by (assumption || lia). unfold sum0, ham4. cbn.
      apply (by_half (smul (smul (sgn fac) (smul (sadd (Tpph [0; p; r; u]) (Tpph [1; p; r; u])) (Th [q]))) (h2 (j, q) (i, p) (i, u) (i, r)))). ring.
    + unfold HamRows.B2. join. rewrite td3b.
      rewrite (bsum_ext K _ _ (fun x => sum2 (n j) (n j) (fun y z => smul (sum0 2 Tphh [x; y; z]) (bsum (seq 0 (n i)) (fun p => smul (Tp [p]) (ham4 h2 j j j i [y; x; z; p])))))) by (intros; apply sum2_ext; intros; rewrite td1; reflexivity).
      rewrite nest31, sum4_pair, sum4_sw, sum4_mul_l. apply sum4_ext. intros p q r u Hp Hq Hr' Hu. rewrite !Cj by (assumption || lia). unfold sum0, ham4. cbn. rewrite (Hpair (j, u)).
      apply (by_half (smul (smul (sgn fac) (smul (sadd (Tphh [0; r; u; q]) (Tphh [1; r; u; q])) (Tp [p]))) (h2 (j, q) (i, p) (j, u) (j, r)))). ring.
  - rewrite !B2_0, sum2_0 by sx0. unfold two. ring.
Qed.
Lemma val_1c1d i j k s : i <> j -> i <> k -> j <> k -> s < 2 -> conn [i; j; k] [(i, s)] [(j, s)] -> val_is [i; j; k] (ham_1c1d half n ints uroot nelec_rf h2 bra ket i j k s).
Proof.
  intros N N1 N2 Hs C. destruct (loc_st' _ _ _ i C ltac:(cbn; auto)) as (Li & SA & SB). destruct (loc_st' _ _ _ j C ltac:(cbn; auto)) as (Lj & SA' & SB'). destruct (loc_st' _ _ _ k C ltac:(cbn; auto)) as (Lk & SAk & SBk).
  destruct (ch' _ _ _ i C ltac:(cbn; auto)) as [M0 M1]. destruct (ch' _ _ _ j C ltac:(cbn; auto)) as [M0' M1'].
  assert (F1 : fewer ne i (B i) (A i) (1 - s) s) by (mvs M0; mvs M1; unfold fewer; destruct s as [|[|]]; [| |lia]; cbn in *; lia).
  assert (F2 : fewer ne j (A j) (B j) (1 - s) s) by (mvs M0'; mvs M1'; unfold fewer; destruct s as [|[|]]; [| |lia]; cbn in *; lia).
  assert (F3 : ne k (fst (A k)) = ne k (fst (B k))). { apply (same_ne' _ _ _ k C); [cbn; auto|..]; unfold moves; cbn [times fst snd]; rewrite (proj2 (Nat.eqb_neq k i)), (proj2 (Nat.eqb_neq k j)) by congruence; reflexivity. }
  destruct (get_p' i s Li SA SB Hs F1) as (Tp & Gp & Vp). destruct (get_h' j s Lj SA' SB' Hs F2) as (Th & Gh & Vh). destruct (get_dm1' k Lk SAk SBk F3) as (Td & Gd & Vd).
  assert (Fr : forall f, In f [i; j; k] -> f < nf) by (intros f [<-|[<-|[<-|[]]]]; assumption).
  pose (fac := xorb (abv nf (fun g => mem g [i; j; k]) pA i) (abv nf (fun g => mem g [i; j; k]) pB j)).
  assert (Fac : fac = xorb (xorb (abv nf (fun g => mem g [i; j; k]) pB i) (abv nf (fun g => mem g [i; j; k]) pB j)) (i <? j)).
  { unfold fac. rewrite (abvA' _ _ _ (X1 s (i, 0) (j, 0)) i C); [|exact Hs|reflexivity|cbn; intuition]. unfold xfr. xcbn. par. btauto. }
  pose proof (row_1c1d K nf n V ne nl ints uroot nelec_rf H8 Hne Hex bra ket Hbra Hket i j k s N N1 N2 Hs C) as Hr.
  unfold ham_1c1d. rewrite des_bra' by (try exact Fr; cbn; auto). cbn [bind]. rewrite des_ket' by (try exact Fr; cbn; auto). cbn [bind]. rewrite Gp. cbn [bind]. rewrite Gh. cbn [bind]. rewrite Gd. cbn [bind].
  eexists. split; [reflexivity|]. cbn [fst snd s2val]. fold fac.
  rewrite (tgt_1c1d K nf n V ne ints uroot nelec_rf H8 bra ket hx i j k s hx_pair Li Lj Lk N N1 N2 Hs Hr), (tgt_1c1d K nf n V ne ints uroot nelec_rf H8 bra ket sx i j k s sx_pair Li Lj Lk N N1 N2 Hs Hr).
  assert (Ca : forall t p q r u, t < 2 -> p < n i -> q < n j -> r < n k -> u < n k -> Lx [i; j; k] (X2 (s * 2 + t) (i, p) (j, q) (k, r) (k, u)) = smul (sgn fac) (smul (smul (Tp [p]) (Th [q])) (Td [t; r; u])))
    by (intros; rewrite can_1c1d, <- Fac, <- Vp, <- Vh, <- Vd, sgn_sg by assumption; reflexivity).
  split.
  - rewrite !td211, td211x. cbn [bsum fold_right]. unfold HamRows.B2, HamRows.blkx. join. rewrite !(Rmul_comm (sring K) _ (sgn fac)). join. rewrite sum4_pair, sum4_sw. apply sum4_ext. intros p q r u Hp Hq Hr' Hu.
    replace (s * 3) with (s * 2 + s) by lia. rewrite !Ca by (assumption || lia). unfold tpose, to_cs, sub, ham4, ascale. cbn. rewrite (Hpair (k, u) (k, r)), (Hpair (k, u) (i, p)).
    apply (by_half (smul (smul (sgn fac) (smul (smul (Tp [p]) (Th [q])) (sadd (Td [0; r; u]) (Td [1; r; u])))) (h2 (j, q) (i, p) (k, u) (k, r)))).
    destruct s as [|[|]]; [| |lia]; cbn [Nat.eqb sgn]; ring.
  - cbn [bsum fold_right]. rewrite !B2_0, blkx_0 by sx0. unfold two. ring.
Qed.
Lemma val_1s1c i j k s : i <> j -> i <> k -> j <> k -> s < 2 -> conn [i; j; k] [(i, s); (k, 1 - s)] [(j, 1 - s); (k, s)] -> val_is [i; j; k] (ham_1s1c n ints uroot nelec_rf h2 bra ket i j k s).
Proof.
  intros N N1 N2 Hs C. destruct (loc_st' _ _ _ i C ltac:(cbn; auto)) as (Li & SA & SB). destruct (loc_st' _ _ _ j C ltac:(cbn; auto)) as (Lj & SA' & SB'). destruct (loc_st' _ _ _ k C ltac:(cbn; auto)) as (Lk & SAk & SBk).
  destruct (ch' _ _ _ i C ltac:(cbn; auto)) as [M0 M1]. destruct (ch' _ _ _ j C ltac:(cbn; auto)) as [M0' M1']. destruct (ch' _ _ _ k C ltac:(cbn; auto)) as [M0k M1k]. mvs M0; mvs M1; mvs M0'; mvs M1'; mvs M0k; mvs M1k.
  assert (F1 : fewer ne i (B i) (A i) (1 - s) s) by (unfold fewer; destruct s as [|[|]]; [| |lia]; cbn in *; lia).
  assert (F2 : fewer ne j (A j) (B j) (1 - (1 - s)) (1 - s)) by (unfold fewer; destruct s as [|[|]]; [| |lia]; cbn in *; lia).
  destruct (get_p' i s Li SA SB Hs F1) as (Tp & Gp & Vp). destruct (get_h' j (1 - s) Lj SA' SB' ltac:(lia) F2) as (Th & Gh & Vh).
  assert (exists Td, (if s =? 0 then get_1_sm ints uroot k bra ket else get_1_sp ints uroot k bra ket) = Ok Td /\ forall r q, r < n k -> q < n k -> Td [r; q] = el k (A k) (B k) [cr (1 - s) (k, r); an s (k, q)]) as (Td & Gd & Vd).
  { destruct s as [|[|]]; [| |lia]; cbn [Nat.eqb Nat.sub] in *; [apply get_sm'|apply get_sp']; try assumption; cbn in *; lia. }
  assert (Fr : forall f, In f [i; j; k] -> f < nf) by (intros f [<-|[<-|[<-|[]]]]; assumption).
  pose (fac := xorb true (xorb (abv nf (fun g => mem g [i; j; k]) pA i) (abv nf (fun g => mem g [i; j; k]) pB j))).
  assert (Fac : fac = negb (xorb (xorb (abv nf (fun g => mem g [i; j; k]) pB i) (abv nf (fun g => mem g [i; j; k]) pB j)) (i <? j))).
  { unfold fac. rewrite (abvA' _ _ _ (X2 (1 + s) (i, 0) (k, 0) (k, 0) (j, 0)) i C).
    - unfold xfr. xcbn. par. btauto.
    - cbn. lia.
    - intros f t. assert (E : (1 + s) / 2 = s /\ (1 + s) mod 2 = 1 - s) by (destruct s as [|[|]]; try lia; split; reflexivity). cbn [xcre xann]. destruct E as [-> ->]. unfold moves. cbn [times fst snd]. lia.
    - unfold xfr. xcbn. cbn [In]. tauto. }
  pose proof (row_1s1c K nf n V ne nl ints uroot nelec_rf H8 Hne Hex bra ket Hbra Hket i j k s N N1 N2 Hs C) as Hr.
  unfold ham_1s1c. rewrite des_bra' by (try exact Fr; cbn; auto). cbn [bind]. rewrite des_ket' by (try exact Fr; cbn; auto). cbn [bind]. rewrite Gp. cbn [bind]. rewrite Gh. cbn [bind]. rewrite Gd. cbn [bind].
  eexists. split; [reflexivity|]. cbn [fst snd s2val]. fold fac.
  rewrite (tgt_1s1c K nf n V ne ints uroot nelec_rf H8 bra ket hx i j k s hx_pair Li Lj Lk N N1 N2 Hs Hr), (tgt_1s1c K nf n V ne ints uroot nelec_rf H8 bra ket sx i j k s sx_pair Li Lj Lk N N1 N2 Hs Hr).
  split.
  - rewrite td211. unfold HamRows.B2. join. rewrite sum4_pair, sum4_sw, sum4_ex2. apply sum4_ext. intros p q r u Hp Hq Hr' Hu.
    rewrite can_1s1c, <- Fac, <- Vp, <- Vh, <- Vd, <- sgn_sg by assumption. unfold tpose, ham4. cbn -[sgn fac]. rewrite (Hpair (k, q)).
    apply (by_half (smul (sgn fac) (smul (smul (smul (Tp [p]) (Th [u])) (Td [r; q])) (h2 (j, u) (k, r) (k, q) (i, p))))). ring.
  - rewrite B2_0 by sx0. unfold two. ring.
Qed.
Lemma sgn_xorb b c : smul (sgn b) (sgn c) = (sgn (xorb b c) : K).
Proof. destruct b, c; cbn; ring. Qed.
Section TwoHops.
Variables a i b j s : nat.
Hypothesis N1 : a <> i. Hypothesis N2 : a <> j. Hypothesis N3 : b <> i. Hypothesis N4 : b <> j.
Hypothesis Hs : s < 3.
Hypothesis C : conn [a; i; b; j] [(a, sp1 s); (b, sp2 s)] [(j, sp2 s); (i, sp1 s)].
Notation fr := [a; i; b; j].
Notation blk := (nth s [0; 1; 3] 0).
Lemma fin_2c (Pab Hij : nat -> nat -> K) f (dot_ab dot_ij : @arr K -> @arr K) :
  (forall h rest, dot_ab h rest = sum2 (n a) (n b) (fun p r => smul (Pab p r) (h (rest ++ [p; r])))) ->
  (forall h, dot_ij h [] = sum2 (n j) (n i) (fun u q => smul (Hij u q) (h [u; q]))) ->
  (forall p q r u, p < n a -> q < n i -> r < n b -> u < n j -> Lx fr (X2 blk (a, p) (i, q) (b, r) (j, u)) = smul (sgn f) (smul (Pab p r) (Hij u q))) ->
  let fac := smul (if (a =? b) && (i =? j) && (blk / 2 =? blk mod 2) then half else s1) (sgn f) in
  let h_j := tpose [0; 2; 3; 1] (ham4 h2 j b i a) in
  let h_k := tpose [0; 2; 1; 3] (ham4 h2 j a i b) in
  let weird := negb (blk / 2 =? blk mod 2) && ((a =? b) || (i =? j)) in
  let ham := if weird then [aadd h_j h_k; asub h_j h_k]
             else if (blk / 2 =? blk mod 2) && negb (a =? b) && negb (i =? j) then [asub h_j h_k] else [h_j] in
  let fac := if weird then smul fac half else fac in
  bsum ham (fun h => smul (dot_ij (dot_ab h) []) fac) = target hx fr /\ s0 = target sx fr.
Proof.
  intros Dab Dij Ca. pose proof (row_2c K nf n V ne nl ints uroot nelec_rf nz H8 Hne Hex Hfit Hnz bra ket Hbra Hket a i b j s N1 N2 N3 N4 Hs C) as Hr.
  assert (In4 : forall f, In f fr -> f < nf) by (intros g Hg; exact (proj1 (loc_st' _ _ _ g C Hg))).
  assert (La : a < nf) by (apply In4; cbn; auto). assert (Li : i < nf) by (apply In4; cbn; auto). assert (Lb : b < nf) by (apply In4; cbn; auto). assert (Lj : j < nf) by (apply In4; cbn; auto).
  rewrite (tgt_2c K nf n V ne ints uroot nelec_rf nz H8 bra ket hx a i b j s hx_pair La Li Lb Lj N1 N2 N3 N4 Hs Hr), (tgt_2c K nf n V ne ints uroot nelec_rf nz H8 bra ket sx a i b j s sx_pair La Li Lb Lj N1 N2 N3 N4 Hs Hr).
  assert (D : forall h, dot_ij (dot_ab h) [] = sum4 (n a) (n i) (n b) (n j) (fun p q r u => smul (smul (Pab p r) (Hij u q)) (h [u; q; p; r]))).
  { intros h. rewrite Dij. rewrite (sum2_ext _ _ _ (fun u q => smul (Hij u q) (sum2 (n a) (n b) (fun p r => smul (Pab p r) (h [u; q; p; r]))))) by (intros; rewrite Dab; reflexivity).
    rewrite nest22, sum4_ex1, sum4_sw2. apply sum4_ext. intros. ring. }
  split.
  - assert (E0 : forall k (F : nat -> nat -> nat -> nat -> K), smul (sum4 (n a) (n i) (n b) (n j) F) k = smul k (sum4 (n a) (n i) (n b) (n j) F)) by (intros; ring).
    cbv zeta. destruct s as [|[|[|]]]; [| | |lia]; cbn [nth Nat.div Nat.modulo fst snd Nat.divmod Nat.sub Nat.eqb] in *; rewrite ?andb_true_r, ?andb_false_r; cbn [Datatypes.andb Datatypes.orb negb];
      destruct (a =? b), (i =? j); cbn [Datatypes.andb Datatypes.orb negb bsum fold_right]; rewrite !D, ?E0; unfold HamRows.B2, HamRows.blkx; join; apply sum4_ext; intros p q r u Hp Hq Hr' Hu;
      rewrite Ca by assumption; unfold aadd, asub, tpose, ham4; cbn -[sgn]; rewrite (Hpair (j, u) (b, r)).
    all: try ring.
    all: try (apply (by_half (smul (smul (sgn f) (smul (Pab p r) (Hij u q))) (h2 (i, q) (a, p) (j, u) (b, r)))); ring).
    all: apply (by_half (smul (smul (sgn f) (smul (Pab p r) (Hij u q))) (ssub (h2 (i, q) (a, p) (j, u) (b, r)) (h2 (j, u) (a, p) (i, q) (b, r))))); ring.
  - cbv zeta. rewrite !B2_0, !blkx_0 by sx0. unfold two. repeat match goal with |- context [if ?c then _ else _] => destruct c end; ring.
Qed.
Lemma val_2c : val_is fr (ham_2c half n ints uroot nelec_rf h2 bra ket a i b j s).
Proof.
  pose proof (few_i nf ne nl uroot H8 bra ket a i b j s N1 N2 N3 N4 Hs C) as Fi. pose proof (few_j nf ne nl uroot H8 bra ket a i b j s N1 N2 N3 N4 Hs C) as Fj.
  pose proof (blk_s1 nf ne nl uroot H8 bra ket a i b j s N1 N2 N3 N4 Hs C) as E1. pose proof (blk_s2 nf ne nl uroot H8 bra ket a i b j s N1 N2 N3 N4 Hs C) as E2.
  pose proof (s1_lt nf ne nl uroot H8 bra ket a i b j s N1 N2 N3 N4 Hs C) as L1. pose proof (s2_lt nf ne nl uroot H8 bra ket a i b j s N1 N2 N3 N4 Hs C) as L2.
  destruct (loc_st' _ _ _ a C ltac:(cbn; auto)) as (La & SAa & SBa). destruct (loc_st' _ _ _ i C ltac:(cbn; auto)) as (Li & SAi & SBi).
  destruct (loc_st' _ _ _ b C ltac:(cbn; auto)) as (Lb & SAb & SBb). destruct (loc_st' _ _ _ j C ltac:(cbn; auto)) as (Lj & SAj & SBj).
  assert (Fr : forall f, In f fr -> f < nf) by (intros g Hg; exact (proj1 (loc_st' _ _ _ g C Hg))).
  assert (Ia : In a fr) by (cbn; auto). assert (Ii : In i fr) by (cbn; auto). assert (Ib : In b fr) by (cbn; auto). assert (Ij : In j fr) by (cbn; auto 6).
  pose (ff1 := if i =? j then false else xorb (j <? i) (xorb (abv nf (fun g => mem g fr) pB i) (abv nf (fun g => mem g fr) pB j))).
  pose (ff2 := if a =? b then false else xorb (b <? a) (xorb (abv nf (fun g => mem g fr) pA a) (abv nf (fun g => mem g fr) pA b))).
  assert (Q1 : (if i =? j then Ok false else do x <- des nelec_rf ket fr i ;; do y <- des nelec_rf ket fr j ;; Ok (xorb (j <? i) (xorb x y))) = Ok ff1).
  { unfold ff1. destruct (i =? j); [reflexivity|]. rewrite des_ket' by assumption. cbn [bind]. rewrite des_ket' by assumption. reflexivity. }
  assert (Q2 : (if a =? b then Ok false else do x <- des nelec_rf bra fr a ;; do y <- des nelec_rf bra fr b ;; Ok (xorb (b <? a) (xorb x y))) = Ok ff2).
  { unfold ff2. destruct (a =? b); [reflexivity|]. rewrite des_bra' by assumption. cbn [bind]. rewrite des_bra' by assumption. reflexivity. }
  unfold ham_2c. rewrite Q1. cbn [bind]. rewrite Q2. cbn [bind]. rewrite sgn_xorb.
  assert (Hab : exists dot Pab, (if a =? b then do pp <- get_1_pp ints uroot a bra ket s ;; Ok (tensordot [n a; n a] [2; 1] [2; 1] pp)
                  else do p_b <- get_1_p ints uroot b bra ket (blk mod 2) ;; do p_a <- get_1_p ints uroot a bra ket (blk / 2) ;; Ok (fun h => tensordot [n a] [1] [1] p_a (tensordot [n b] [1] [1] p_b h))) = Ok dot /\
      (forall h rest, dot h rest = sum2 (n a) (n b) (fun p r => smul (Pab p r) (h (rest ++ [p; r])))) /\
      forall p r, p < n a -> r < n b -> Pab p r = if a =? b then el a (A a) (B a) [cr (sp1 s) (a, p); cr (sp2 s) (a, r)] else smul (el a (A a) (B a) [cr (sp1 s) (a, p)]) (el b (A b) (B b) [cr (sp2 s) (b, r)])).
  { destruct (Nat.eqb_spec a b) as [E|Ne].
    - destruct (get_pp' a s La SAa SBa Hs Fi) as (T & G & Vt). rewrite G. cbn [bind]. do 2 eexists. split; [reflexivity|]. split.
      + intros h rest. rewrite td2. rewrite <- E. apply sum2_ext. intros p r _ _. instantiate (1 := fun p r => T [p; r]). reflexivity.
      + intros p r Hp Hr. cbv beta. rewrite <- E in Hr. now apply Vt.
    - destruct Fi as [Fa Fb]. rewrite E1, E2. destruct (get_p' a _ La SAa SBa L1 Fa) as (Ta & Ga & Va). destruct (get_p' b _ Lb SAb SBb L2 Fb) as (Tb & Gb & Vb). rewrite Gb. cbn [bind]. rewrite Ga. cbn [bind]. do 2 eexists. split; [reflexivity|]. split.
      + intros h rest. rewrite td11. apply sum2_ext. intros p r _ _. instantiate (1 := fun p r => smul (Ta [p]) (Tb [r])). cbv beta. ring.
      + intros p r Hp Hr. cbv beta. now rewrite Va, Vb by assumption. }
  destruct Hab as (dab & Pab & Gab & Dab & Vab). rewrite Gab. cbn [bind].
  assert (Hij : exists dot Hij, (if i =? j then do hh <- get_1_hh ints uroot i bra ket s ;; Ok (tensordot [n i; n i] [2; 1] [2; 1] hh)
                  else do h_i <- get_1_h ints uroot i bra ket (blk / 2) ;; do h_j <- get_1_h ints uroot j bra ket (blk mod 2) ;; Ok (fun h => tensordot [n j] [1] [1] h_j (tensordot [n i] [1] [1] h_i h))) = Ok dot /\
      (forall h, dot h [] = sum2 (n j) (n i) (fun u q => smul (Hij u q) (h [u; q]))) /\
      forall u q, u < n j -> q < n i -> Hij u q = if i =? j then el i (A i) (B i) [an (sp2 s) (i, u); an (sp1 s) (i, q)] else smul (el j (A j) (B j) [an (sp2 s) (j, u)]) (el i (A i) (B i) [an (sp1 s) (i, q)])).
  { destruct (Nat.eqb_spec i j) as [E|Ne].
    - destruct (get_hh' i s Li SAi SBi Hs Fj) as (T & G & Vt). rewrite G. cbn [bind]. do 2 eexists. split; [reflexivity|]. split.
      + intros h. rewrite td2. rewrite <- E. apply sum2_ext. intros p r _ _. instantiate (1 := fun p r => T [p; r]). reflexivity.
      + intros p r Hp Hr. cbv beta. rewrite <- E in Hp. now apply Vt.
    - destruct Fj as [Fi' Fj']. rewrite E1, E2. destruct (get_h' i _ Li SAi SBi L1 Fi') as (Ti & Gi & Vi). destruct (get_h' j _ Lj SAj SBj L2 Fj') as (Tj & Gj & Vj). rewrite Gi. cbn [bind]. rewrite Gj. cbn [bind]. do 2 eexists. split; [reflexivity|]. split.
      + intros h. rewrite td11. apply sum2_ext. intros p r _ _. instantiate (1 := fun p r => smul (Tj [p]) (Ti [r])). cbv beta. cbn [app]. ring.
      + intros p r Hp Hr. cbv beta. now rewrite Vi, Vj by assumption. }
  destruct Hij as (dij & Hij & Gij & Dij & Vij). rewrite Gij. cbn [bind]. eexists. split; [reflexivity|]. cbn [fst snd s2val].
  apply (fin_2c Pab Hij (xorb ff1 ff2) dab dij Dab Dij). clear Gab Gij Q1 Q2 Dab Dij. intros p q r u Hp Hq Hr Hu. rewrite Vab, Vij by assumption. rewrite sgn_sg. unfold ff1, ff2. destruct (Nat.eqb_spec a b) as [E|Ne], (Nat.eqb_spec i j) as [E'|Ne'].
  - rewrite (can_2c_2 K nf n V ne nl uroot H8 bra ket a i b j s N1 N2 N3 N4 Hs C) by assumption. reflexivity.
  - rewrite (can_2c_ik K nf n V ne nl uroot H8 bra ket a i b j s N1 N2 N3 N4 Hs C) by assumption. match goal with |- sg K ?x _ = sg K ?y _ => replace y with x by btauto end. reflexivity.
  - rewrite (can_2c_jl K nf n V ne nl uroot H8 bra ket a i b j s N1 N2 N3 N4 Hs C) by assumption. match goal with |- sg K ?x _ = sg K ?y _ => replace y with x by btauto end. reflexivity.
  - rewrite (can_2c_4 K nf n V ne nl uroot H8 bra ket a i b j s N1 N2 N3 N4 Hs C) by assumption. match goal with |- sg K ?x _ = sg K ?y _ => replace y with x by btauto end. reflexivity.
Qed.
End TwoHops.
End HVals.
