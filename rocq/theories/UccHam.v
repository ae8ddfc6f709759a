(** The Hamiltonian evaluated by _op1h_spinsym is linear and hermitian. *)
From Coq Require Import List NArith ZArith Arith Bool Lia Ring Sorting.Permutation.
From Verif Require Import Base Star FockSpec FockFacts FsuccModel FsuccFacts FsuccProofs FockOps FsuccHop PropFsucc UccModel.
Import ListNotations.

Section Ham.
Variable K : star_ring.
Add Ring Kring : (sring K).
Local Open Scope star_scope.
Notation vec := (vec K). Notation veq := (veq K). Notation inner := (inner K).

Lemma bsum_tuples {A} (l : list A) n (F : list A -> K) : bsum (tuples l (S n)) F = bsum l (fun x => bsum (tuples l n) (fun r => F (x :: r))).
Proof. cbn [tuples]. rewrite bsum_flat_map. apply bsum_ext. intros x _. now rewrite bsum_map. Qed.
Lemma bsum_tuples_map {A} (l : list A) (f : A -> A) : (forall g : A -> K, bsum l (fun x => g (f x)) = bsum l g) ->
  forall n (F : list A -> K), bsum (tuples l n) (fun L => F (map f L)) = bsum (tuples l n) F.
Proof.
  intros H. induction n as [|n IH]; intros F; [reflexivity|]. rewrite !bsum_tuples. cbn [map].
  rewrite (H (fun x => bsum (tuples l n) (fun r => F (x :: map f r)))). apply bsum_ext. intros x _. apply (IH (fun r => F (x :: r))).
Qed.
Definition swap_ (t : nat * nat * nat) : nat * nat * nat := let '(p, q, s) := t in (q, p, s).
Lemma bsum_moves norb (g : nat * nat * nat -> K) : bsum (moves norb) (fun x => g (swap_ x)) = bsum (moves norb) g.
Proof.
  assert (E : forall h : nat * nat * nat -> K, bsum (moves norb) h = bsum (seq 0 norb) (fun p => bsum (seq 0 norb) (fun q => bsum [0; 1]%nat (fun s => h (p, q, s))))).
  { intros h. unfold moves. rewrite bsum_flat_map. apply bsum_ext. intros p _. rewrite bsum_flat_map. apply bsum_ext. intros q _. now rewrite bsum_map. }
  rewrite !E. cbn [swap_]. apply (bsum_swap K (seq 0 norb) (seq 0 norb) (fun p q => bsum [0; 1]%nat (fun s => g (q, p, s)))).
Qed.
Lemma in_moves norb t : In t (moves norb) -> (dest norb t < 2 * norb)%nat /\ (source norb t < 2 * norb)%nat.
Proof.
  intros H. apply in_flat_map in H. destruct H as [p [Hp H]]. apply in_flat_map in H. destruct H as [q [Hq H]]. apply in_map_iff in H. destruct H as [s [<- Hs]].
  apply in_seq in Hp, Hq. assert (s = 0 \/ s = 1)%nat as [-> | ->] by (cbn [In] in Hs; intuition); cbn [dest source]; lia.
Qed.
Lemma in_tuples {A} (l : list A) n : forall x, In x (tuples l n) -> Forall (fun y => In y l) x.
Proof.
  induction n as [|n IH]; intros x; cbn [tuples]; [intros [<-|[]]; constructor|]. intros H. apply in_flat_map in H. destruct H as [y [Hy H]].
  apply in_map_iff in H. destruct H as [z [<- Hz]]. constructor; auto.
Qed.
Lemma tuple_below norb n L : In L (tuples (moves norb) n) -> below (2 * norb) (map (dest norb) L) /\ below (2 * norb) (map (source norb) L).
Proof.
  intros H. apply in_tuples in H. rewrite Forall_forall in H. split; apply Forall_forall; intros q Hq; apply in_map_iff in Hq; destruct Hq as [t [<- Ht]]; apply in_moves; auto.
Qed.

Lemma inner_sum_r {A} m (l : list A) (u : vec) (f : A -> vec) : inner m u (fun e => bsum l (fun x => f x e)) = bsum l (fun x => inner m u (f x)).
Proof.
  unfold FockSpec.inner. transitivity (bsum (dets m) (fun d => bsum l (fun x => sconj (u d) * f x d))); [apply bsum_ext; intros d _; apply bsum_mul_l|].
  apply bsum_swap.
Qed.
Lemma inner_sum_l {A} m (l : list A) (u : vec) (f : A -> vec) : inner m (fun e => bsum l (fun x => f x e)) u = bsum l (fun x => inner m (f x) u).
Proof. rewrite inner_swap, inner_sum_r, bsum_conj. apply bsum_ext. intros x _. now rewrite <- inner_swap. Qed.

Lemma nbody_ext norb n h (u v : vec) : veq (2 * norb) u v -> veq (2 * norb) (nbody K norb n h u) (nbody K norb n h v).
Proof.
  intros E e He. unfold nbody. apply bsum_ext. intros L HL. destruct (tuple_below norb n L HL) as [B1 B2]. unfold term. f_equal. now apply exop_ext.
Qed.
Lemma nbody_lin norb n h (x y : K) (u v : vec) e :
  nbody K norb n h (fun d => x * u d + y * v d) e = x * nbody K norb n h u e + y * nbody K norb n h v e.
Proof.
  unfold nbody. rewrite !bsum_mul_l, <- bsum_add. apply bsum_ext. intros L HL. destruct (tuple_below norb n L HL) as [B1 B2]. unfold term.
  rewrite exop_lin by assumption. ring.
Qed.
(** an operator array packed over pairs is hermitian if it is real *)
Lemma nbody_adj norb n h (u v : vec) : (forall k, sconj (h k) = h k) ->
  inner (2 * norb) (nbody K norb n h u) v = inner (2 * norb) u (nbody K norb n h v).
Proof.
  intros Hr. unfold nbody. rewrite inner_sum_l, inner_sum_r.
  rewrite <- (bsum_tuples_map (moves norb) swap_ (bsum_moves norb) n (fun L => inner (2 * norb) u (term K norb h v L))).
  apply bsum_ext. intros L HL. destruct (tuple_below norb n L HL) as [B1 B2]. unfold term.
  rewrite (inner_mul_l K (2 * norb) v (exop K (2 * norb) (map (dest norb) L) (map (source norb) L) u)), (inner_mul_r K (2 * norb) u).
  rewrite exop_adj by assumption. rewrite Hr.
  assert (E1 : map pair_of (map swap_ L) = map pair_of L).
  { rewrite map_map. apply map_ext. intros [[p q] s]. cbn. unfold tri. now rewrite (Nat.max_comm q p), (Nat.min_comm q p). }
  assert (E2 : map (dest norb) (map swap_ L) = map (source norb) L) by (rewrite map_map; apply map_ext; intros [[p q] s]; reflexivity).
  assert (E3 : map (source norb) (map swap_ L) = map (dest norb) L) by (rewrite map_map; apply map_ext; intros [[p q] s]; reflexivity).
  now rewrite E1, E2, E3.
Qed.

(** ** H = h0 + sum_n (1/n!) H_n *)
Variable recip : nat -> K.
Fixpoint invfact (n : nat) : K := match n with 0%nat => s1 | S k => invfact k * recip (S k) end.
Definition ham (norb : nat) (h0 : K) (terms : list (nat -> K)) (psi : vec) : vec := fun e =>
  h0 * psi e + bsum (combine (seq 1 (length terms)) terms) (fun nh => invfact (fst nh) * nbody K norb (fst nh) (snd nh) psi e).

Lemma ham_ext norb h0 terms (u v : vec) : veq (2 * norb) u v -> veq (2 * norb) (ham norb h0 terms u) (ham norb h0 terms v).
Proof. intros E e He. unfold ham. rewrite (E e He). f_equal. apply bsum_ext. intros nh _. f_equal. now apply nbody_ext. Qed.
Lemma ham_lin norb h0 terms (x y : K) (u v : vec) e :
  ham norb h0 terms (fun d => x * u d + y * v d) e = x * ham norb h0 terms u e + y * ham norb h0 terms v e.
Proof.
  unfold ham. 
  transitivity (h0 * (x * u e + y * v e) + (x * bsum (combine (seq 1 (length terms)) terms) (fun nh => invfact (fst nh) * nbody K norb (fst nh) (snd nh) u e)
    + y * bsum (combine (seq 1 (length terms)) terms) (fun nh => invfact (fst nh) * nbody K norb (fst nh) (snd nh) v e))); [|ring].
  f_equal. rewrite !bsum_mul_l, <- bsum_add. apply bsum_ext. intros nh _. rewrite nbody_lin. ring.
Qed.
Lemma ham_adj norb h0 terms (u v : vec) : sconj h0 = h0 -> (forall n, sconj (recip n) = recip n) -> (forall h k, In h terms -> sconj (h k) = h k) ->
  inner (2 * norb) (ham norb h0 terms u) v = inner (2 * norb) u (ham norb h0 terms v).
Proof.
  intros H0 Hr Ht. unfold ham.
  assert (F : forall n, sconj (invfact n) = invfact n).
  { induction n as [|n IH]; cbn [invfact]; [|now rewrite sconj_mul, IH, Hr].
    transitivity (sconj s1 * @s1 K); [ring|]. rewrite <- (sconj_inv K (sconj s1 * s1)), sconj_mul, sconj_inv. replace (s1 * sconj s1) with (@sconj K s1) by ring. apply sconj_inv. }
  rewrite inner_add_l, inner_add_r, inner_mul_l, inner_mul_r, H0. f_equal. rewrite inner_sum_l, inner_sum_r. apply bsum_ext. intros [n h] Hnh. cbn [fst snd].
  rewrite (inner_mul_l K (2 * norb) v (nbody K norb n h u)), (inner_mul_r K (2 * norb) u), F. f_equal. apply nbody_adj. intros k. apply Ht. now apply in_combine_r in Hnh.
Qed.

Variable is0 : K -> bool.
Hypothesis is0_ok : forall x : K, is0 x = true -> x = s0.
Variable sched : list N -> list N.
Hypothesis sched_ok : forall l, Permutation (sched l) l.
Lemma op1h_ok norb h0 terms (psi : vec) : (2 * norb < 31)%nat ->
  exists r, op1h_spinsym K is0 sched recip norb h0 terms psi = Ok r /\ veq (2 * norb) r (ham norb h0 terms psi).
Proof.
  intros Hn. unfold op1h_spinsym, ham.
  assert (G : forall terms ix hpsi, exists r, op1h_terms K is0 sched recip norb psi ix (invfact ix) terms hpsi = Ok r /\
     veq (2 * norb) r (fun e => hpsi e + bsum (combine (seq (S ix) (length terms)) terms) (fun nh => invfact (fst nh) * nbody K norb (fst nh) (snd nh) psi e))).
  { induction terms0 as [|h ts IH]; intros ix hpsi.
    - exists hpsi. split; [reflexivity|]. intros e _. cbn. ring.
    - cbn [op1h_terms]. change (invfact ix * recip (S ix)) with (invfact (S ix)).
      destruct (C57_full K is0 is0_ok sched sched_ok norb (S ix) (fun k => invfact (S ix) * h k) psi hpsi Hn ltac:(lia)) as [r [-> [R _]]].
      destruct (IH (S ix) r) as [r' [E R']]. exists r'. split; [exact E|]. intros e He. rewrite (R' e He), (R e He). cbn [length seq combine bsum fst snd].
      transitivity (hpsi e + (invfact (S ix) * nbody K norb (S ix) h psi e + bsum (combine (seq (S (S ix)) (length ts)) ts) (fun nh => invfact (fst nh) * nbody K norb (fst nh) (snd nh) psi e))); [|reflexivity].
      assert (X : nbody K norb (S ix) (fun k => invfact (S ix) * h k) psi e = invfact (S ix) * nbody K norb (S ix) h psi e).
      { unfold nbody. rewrite bsum_mul_l. apply bsum_ext. intros L _. unfold term. ring. }
      rewrite X. ring. }
  exact (G terms 0%nat (fun d => h0 * psi d)).
Qed.
End Ham.
