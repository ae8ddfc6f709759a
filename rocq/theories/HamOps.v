(** The Hamiltonian and the squared spin as sums over the entries of the density matrices. *)
From Coq Require Import List NArith Arith Bool Lia Ring.
From Verif Require Import Base BaseFacts Star FockSpec FockFacts FockOps LprodSpec CrunchModel CrunchSpec HamModel HamSum HamVals HamEnd HamSpec.
Import ListNotations.
Local Open Scope nat_scope.

Section Geo.
Variables (nf : nat) (n : nat -> nat).
Lemma offn_S f : offn n (S f) = offn n f + n f.
Proof. unfold offn. rewrite seq_S, map_app, list_sum_app. cbn. lia. Qed.
Lemma offn_le f g : f <= g -> offn n f <= offn n g.
Proof. induction 1; [lia|]. rewrite offn_S. lia. Qed.
Lemma off_inj f l g k : l < n f -> k < n g -> offn n f + l = offn n g + k -> f = g /\ l = k.
Proof.
  intros Hl Hk E. assert (f = g).
  { destruct (Nat.lt_trichotomy f g) as [L|[->|L]]; [|reflexivity|]; pose proof (offn_le _ _ L) as Q; rewrite offn_S in Q; lia. }
  subst. lia.
Qed.
Lemma off_lt f l : f < nf -> l < n f -> offn n f + l < norb nf n.
Proof. intros Hf Hl. unfold norb. pose proof (offn_le _ _ Hf) as Q. rewrite offn_S in Q. lia. Qed.
Lemma gorb_lt (p : nat * nat) b : orb_in nf n p -> gorb nf n (fst p) b (snd p) < 2 * norb nf n.
Proof. intros [Hf Hl]. unfold gorb. pose proof (off_lt _ _ Hf Hl). destruct b; lia. Qed.
Lemma gorb_eqb (p q : nat * nat) b c : orb_in nf n p -> orb_in nf n q ->
  (gorb nf n (fst p) b (snd p) =? gorb nf n (fst q) c (snd q)) = Bool.eqb b c && oeq p q.
Proof.
  intros [Hp Hp'] [Hq Hq']. unfold gorb, oeq. pose proof (off_lt _ _ Hp Hp'). pose proof (off_lt _ _ Hq Hq').
  apply eq_true_iff_eq. rewrite Nat.eqb_eq, !andb_true_iff, !Nat.eqb_eq. split.
  - intros E. destruct b, c; cbn [Bool.eqb]; try lia; (split; [reflexivity|]; apply off_inj; [assumption|assumption|lia]).
  - intros (E & <- & <-). apply Bool.eqb_prop in E. now subst c.
Qed.
Lemma orbitals_is : orbitals nf n = orbs nf n.
Proof. unfold orbitals, orbs. symmetry. apply flat_map_concat_map. Qed.
Lemma in_orbs p : In p (orbs nf n) <-> orb_in nf n p.
Proof.
  unfold orbs, orb_in. rewrite in_flat_map. split.
  - intros (f & Hf & I). apply in_map_iff in I as (l & <- & Hl). apply in_seq in Hf, Hl. cbn. lia.
  - intros [Hf Hl]. exists (fst p). split; [apply in_seq; lia|]. apply in_map_iff. exists (snd p). split; [now destruct p|apply in_seq; lia].
Qed.
Lemma orbs_nodup : NoDup (orbs nf n).
Proof.
  unfold orbs. generalize (seq_NoDup nf 0). induction (seq 0 nf) as [|f l IH]; intros H; [constructor|]. inversion H as [|? ? Hf Hl]; subst. cbn [flat_map].
  apply NoDup_app_intro; [|now apply IH|].
  - apply FinFun.Injective_map_NoDup; [|apply seq_NoDup]. intros x y E. congruence.
  - intros p I J. apply in_map_iff in I as (x & <- & _). apply in_flat_map in J as (g & Hg & J). apply in_map_iff in J as (y & E & _). congruence.
Qed.
Lemma oeq_iff p q : oeq p q = true <-> p = q.
Proof. unfold oeq. rewrite andb_true_iff, !Nat.eqb_eq. destruct p, q; cbn. split; [intros [-> ->]; reflexivity|intros E; split; congruence]. Qed.
End Geo.

Section Ops.
Variable K : star_ring.
Add Ring Kr : (sring K).
Variables (nf : nat) (n : nat -> nat).
Local Notation m := (2 * norb nf n).
Local Notation O := (orbs nf n).

Lemma sg_bsum {A} b (l : list A) (F : A -> K) : sg K b (bsum l F) = bsum l (fun x => sg K b (F x)).
Proof. destruct b; cbn [sg]; [|reflexivity]. induction l as [|x l IH]; cbn [bsum]; [ring|]. rewrite <- IH. ring. Qed.
Lemma cre_bsum {A} p (l : list A) (F : A -> vec K) d : cre K m p (fun e => bsum l (fun x => F x e)) d = bsum l (fun x => cre K m p (F x) d).
Proof. unfold cre. destruct (bt d p); [apply sg_bsum|]. symmetry. apply bsum_0. reflexivity. Qed.
Lemma ann_bsum {A} p (l : list A) (F : A -> vec K) d : ann K m p (fun e => bsum l (fun x => F x e)) d = bsum l (fun x => ann K m p (F x) d).
Proof. unfold ann. destruct (bt d p); [|apply sg_bsum]. symmetry. apply bsum_0. reflexivity. Qed.
Lemma cre_add p (u v : vec K) d : cre K m p (fun e => sadd (u e) (v e)) d = sadd (cre K m p u d) (cre K m p v d).
Proof. unfold cre. destruct (bt d p); [|ring]. destruct (above _ _ _); cbn [sg]; ring. Qed.
Lemma ann_add p (u v : vec K) d : ann K m p (fun e => sadd (u e) (v e)) d = sadd (ann K m p u d) (ann K m p v d).
Proof. unfold ann. destruct (bt d p); [ring|]. destruct (above _ _ _); cbn [sg]; ring. Qed.
Lemma cre_scale p x (v : vec K) d : cre K m p (fun e => smul x (v e)) d = smul x (cre K m p v d).
Proof. unfold cre. destruct (bt d p); [|ring]. destruct (above _ _ _); cbn [sg]; ring. Qed.
Lemma ann_scale p x (v : vec K) d : ann K m p (fun e => smul x (v e)) d = smul x (ann K m p v d).
Proof. unfold ann. destruct (bt d p); [ring|]. destruct (above _ _ _); cbn [sg]; ring. Qed.
Lemma cre_opp p (v : vec K) d : cre K m p (fun e => sopp (v e)) d = sopp (cre K m p v d).
Proof. unfold cre. destruct (bt d p); [|ring]. destruct (above _ _ _); cbn [sg]; ring. Qed.
Lemma cre_pt p (u v : vec K) d : (forall e, u e = v e) -> cre K m p u d = cre K m p v d.
Proof. intros H. unfold cre. destruct (bt d p); [|reflexivity]. now rewrite H. Qed.
Lemma ann_pt p (u v : vec K) d : (forall e, u e = v e) -> ann K m p u d = ann K m p v d.
Proof. intros H. unfold ann. destruct (bt d p); [reflexivity|]. now rewrite H. Qed.
Lemma inner_bsum {A} (l : list A) (u : vec K) (F : A -> vec K) : inner K m u (fun e => bsum l (fun x => F x e)) = bsum l (fun x => inner K m u (F x)).
Proof. unfold inner. rewrite bsum_swap. apply bsum_ext. intros d _. apply bsum_mul_l. Qed.

Local Notation cc := (mkc K nf n).
Local Notation aa := (mka K nf n).
(** p' q r' u = delta(q,r) p' u - p' r' q u *)
Lemma ca_ca (b c : bool) p q r u (w : vec K) d s t : orb_in nf n q -> orb_in nf n r ->
  cc b p (aa s q (cc t r (aa c u w))) d = ssub (if Bool.eqb s t && oeq q r then cc b p (aa c u w) d else s0) (cc b p (cc t r (aa s q (aa c u w))) d).
Proof.
  intros Hq Hr. unfold mkc, mka. set (w' := ann K m (gorb nf n (fst u) c (snd u)) w).
  rewrite (cre_pt _ _ (fun e => sadd (if Bool.eqb s t && oeq q r then w' e else s0) (sopp (cre K m (gorb nf n (fst r) t (snd r)) (ann K m (gorb nf n (fst q) s (snd q)) w') e)))).
  - rewrite (cre_add _ (fun e => if Bool.eqb s t && oeq q r then w' e else s0)), cre_opp. destruct (_ && _); [change (fun e => w' e) with w'; ring|].
    transitivity (sadd s0 (sopp (cre K m (gorb nf n (fst p) b (snd p)) (cre K m (gorb nf n (fst r) t (snd r)) (ann K m (gorb nf n (fst q) s (snd q)) w')) d))); [|ring]. f_equal.
    unfold cre. destruct (bt d _); [|reflexivity]. destruct (above _ _ _); cbn [sg]; ring.
  - intros e. pose proof (ann_cre K m (gorb nf n (fst q) s (snd q)) (gorb nf n (fst r) t (snd r)) w' e (gorb_lt _ _ _ _ Hq) (gorb_lt _ _ _ _ Hr)) as Q.
    rewrite gorb_eqb in Q by assumption. rewrite <- Q. ring.
Qed.
(** q u = - u q *)
Lemma a_a s t q u (w : vec K) d : orb_in nf n q -> orb_in nf n u -> aa s q (aa t u w) d = sopp (aa t u (aa s q w) d).
Proof. intros Hq Hu. unfold mka. apply ann_ann; now apply gorb_lt. Qed.
Lemma c_c s t q u (w : vec K) d : orb_in nf n q -> orb_in nf n u -> cc s q (cc t u w) d = sopp (cc t u (cc s q w) d).
Proof. intros Hq Hu. unfold mkc. apply cre_cre; now apply gorb_lt. Qed.
(** p' r' q u = - p' r' u q *)
Lemma cc_aa b t s c p r q u (w : vec K) d : orb_in nf n q -> orb_in nf n u -> cc b p (cc t r (aa s q (aa c u w))) d = sopp (cc b p (cc t r (aa c u (aa s q w))) d).
Proof.
  intros Hq Hu. unfold mkc at 1 2 3 4. rewrite <- cre_opp. apply cre_pt. intros e. rewrite <- cre_opp. apply cre_pt. intros e'. now apply a_a.
Qed.
Lemma n_n s t p q (w : vec K) d : orb_in nf n p -> orb_in nf n q ->
  cc s p (aa s p (cc t q (aa t q w))) d = sadd (if Bool.eqb s t && oeq p q then cc s p (aa s p w) d else s0) (cc s p (cc t q (aa t q (aa s p w))) d).
Proof.
  intros Hp Hq. rewrite ca_ca by assumption. rewrite cc_aa by assumption. destruct (Bool.eqb s t && oeq p q) eqn:E; [|ring].
  apply andb_true_iff in E as [E1 E2]. apply Bool.eqb_prop in E1. apply oeq_iff in E2. subst. ring.
Qed.

(** ** sums with deltas *)
Lemma delta_o p (F : nat * nat -> K) : orb_in nf n p -> bsum O (fun q => if oeq p q then F q else s0) = F p.
Proof.
  intros Hp. rewrite (bsum_single K O _ p).
  - now rewrite (proj2 (oeq_iff p p) eq_refl).
  - apply orbs_nodup.
  - now apply in_orbs.
  - intros q _ Hq. destruct (oeq p q) eqn:E; [|reflexivity]. apply oeq_iff in E. congruence.
Qed.
Definition bo2 (F : nat * nat -> nat * nat -> K) : K := bsum O (fun p => bsum O (fun q => F p q)).
Lemma bo2_ext F G : (forall p q, orb_in nf n p -> orb_in nf n q -> F p q = G p q) -> bo2 F = bo2 G.
Proof. intros H. apply bsum_ext. intros p Hp. apply bsum_ext. intros q Hq. apply in_orbs in Hp, Hq. now apply H. Qed.
Lemma bo2_add F G : bo2 (fun p q => sadd (F p q) (G p q)) = sadd (bo2 F) (bo2 G).
Proof. unfold bo2. rewrite <- bsum_add. apply bsum_ext. intros p _. apply bsum_add. Qed.
Lemma bo2_mul k F : bo2 (fun p q => smul k (F p q)) = smul k (bo2 F).
Proof. unfold bo2. rewrite bsum_mul_l. apply bsum_ext. intros p _. symmetry. apply bsum_mul_l. Qed.
Lemma bo2_swap F : bo2 F = bo2 (fun p q => F q p).
Proof. apply bsum_swap. Qed.
Lemma delta_pq k (F : nat * nat -> nat * nat -> K) : bo2 (fun p q => smul (if oeq p q then k else s0) (F p q)) = smul k (bsum O (fun p => F p p)).
Proof.
  unfold bo2. rewrite bsum_mul_l. apply bsum_ext. intros p Hp. apply in_orbs in Hp. rewrite <- (delta_o p (fun q => smul k (F p q)) Hp). apply bsum_ext. intros q _. destruct (oeq p q); ring.
Qed.
Lemma delta_pqru k (F : nat * nat -> nat * nat -> nat * nat -> nat * nat -> K) :
  bo2 (fun p q => bo2 (fun r u => smul (if oeq p q && oeq r u then k else s0) (F p q r u))) = smul k (bo2 (fun p r => F p p r r)).
Proof.
  rewrite (bo2_ext _ (fun p q => smul (if oeq p q then s1 else s0) (smul k (bsum O (fun r => F p q r r))))).
  - rewrite delta_pq. unfold bo2. rewrite <- (bsum_mul_l K O k). ring.
  - intros p q _ _. rewrite <- (delta_pq k (fun r u => F p q r u)), <- bo2_mul. apply bo2_ext. intros r u _ _. destruct (oeq p q), (oeq r u); cbn [andb]; ring.
Qed.
Lemma delta_puqr k (F : nat * nat -> nat * nat -> nat * nat -> nat * nat -> K) :
  bo2 (fun p q => bo2 (fun r u => smul (if oeq p u && oeq r q then k else s0) (F p q r u))) = smul k (bo2 (fun p q => F p q q p)).
Proof.
  transitivity (bsum O (fun p => smul k (bsum O (fun q => F p q q p)))); [|symmetry; apply bsum_mul_l].
  apply bsum_ext. intros p Hp. apply in_orbs in Hp. rewrite bsum_mul_l. apply bsum_ext. intros q Hq. apply in_orbs in Hq.
  transitivity (bsum O (fun r => if oeq q r then smul k (F p q r p) else s0)).
  - apply bsum_ext. intros r _. rewrite (oeq_sym r q). destruct (oeq q r).
    + rewrite <- (delta_o p (fun u => smul k (F p q r u)) Hp). apply bsum_ext. intros u _. rewrite andb_true_r. destruct (oeq p u); ring.
    + apply bsum_0. intros u _. rewrite andb_false_r. ring.
  - now rewrite (delta_o q (fun r => smul k (F p q r p)) Hq).
Qed.

Variable half : K.
Hypothesis Hhalf : sadd half half = s1.
Variable w : vec K.
Local Notation g x := (gops K nf n (xops x) w).
Lemma g1 s p q : s < 2 -> g (X1 s p q) = cc (down s) p (aa (down s) q w).
Proof. reflexivity. Qed.

Definition N1 (s : bool) d : K := bsum O (fun p => cc s p (aa s p w) d).
Definition D2 (s t : bool) d : K := bo2 (fun p r => cc s p (cc t r (aa t r (aa s p w))) d).
Definition X2s (s t : bool) d : K := bo2 (fun p q => cc s p (cc t q (aa t p (aa s q w))) d).
Lemma X2_sym d : X2s false true d = X2s true false d.
Proof.
  unfold X2s. rewrite bo2_swap. apply bo2_ext. intros p q Hp Hq. rewrite c_c by assumption. rewrite cc_aa by assumption. ring.
Qed.
Lemma nn s t d : bo2 (fun p q => cc s p (aa s p (cc t q (aa t q w))) d) = sadd (if Bool.eqb s t then N1 s d else s0) (D2 s t d).
Proof.
  rewrite (bo2_ext _ (fun p q => sadd (if Bool.eqb s t && oeq p q then cc s p (aa s p w) d else s0) (cc s p (cc t q (aa t q (aa s p w))) d))) by (intros; now apply n_n).
  rewrite bo2_add. f_equal. unfold N1. destruct (Bool.eqb s t).
  - apply bsum_ext. intros p Hp. apply in_orbs in Hp. cbn [andb]. exact (delta_o p (fun _ => cc s p (aa s p w) d) Hp).
  - apply bsum_0. intros p _. now apply bsum_0.
Qed.
Lemma mp d : bo2 (fun p q => cc true p (aa false p (cc false q (aa true q w))) d) = ssub (N1 true d) (X2s true false d).
Proof.
  rewrite (bo2_ext _ (fun p q => sadd (if oeq p q then cc true p (aa true q w) d else s0) (smul (sopp s1) (cc true p (cc false q (aa false p (aa true q w))) d)))).
  - rewrite bo2_add, bo2_mul. fold (X2s true false d).
    transitivity (sadd (N1 true d) (smul (sopp s1) (X2s true false d))); [|ring]. f_equal.
    apply bsum_ext. intros p Hp. apply in_orbs in Hp. exact (delta_o p (fun q => cc true p (aa true q w) d) Hp).
  - intros p q Hp Hq. rewrite ca_ca by assumption. cbn [Bool.eqb andb]. ring.
Qed.

Lemma s_squared_sum d : s_squared K nf n half w d = gsum nf n (fun x => smul (sx K half x) (gops K nf n (xops x) w d)).
Proof.
  assert (E1 : s_minus K nf n (s_plus K nf n w) d = ssub (N1 true d) (X2s true false d)).
  { rewrite <- mp. unfold s_minus, s_plus, vsum. rewrite orbitals_is. apply bsum_ext. intros p _. unfold mkc at 1, mka at 1.
    rewrite (cre_pt _ _ (fun e => bsum O (fun q => aa false p (cc false q (aa true q w)) e))) by (intros e; apply (ann_bsum _ O)). apply (cre_bsum _ O). }
  assert (Ez : forall v e, s_z K nf n half v e = smul half (ssub (bsum O (fun p => cc false p (aa false p v) e)) (bsum O (fun p => cc true p (aa true p v) e)))).
  { intros v e. unfold s_z, vscale, vadd, vsum. rewrite orbitals_is. ring. }
  assert (L : forall b p e, cc b p (aa b p (s_z K nf n half w)) e =
    smul half (ssub (bsum O (fun q => cc b p (aa b p (cc false q (aa false q w))) e)) (bsum O (fun q => cc b p (aa b p (cc true q (aa true q w))) e)))).
  { intros b p e. unfold mkc at 1, mka at 1.
    rewrite (cre_pt _ _ (fun e => smul half (sadd (bsum O (fun q => aa b p (cc false q (aa false q w)) e)) (smul (sopp s1) (bsum O (fun q => aa b p (cc true q (aa true q w)) e)))))).
    - rewrite cre_scale, (cre_add _ (fun e => bsum O (fun q => aa b p (cc false q (aa false q w)) e)) (fun e => smul (sopp s1) (bsum O (fun q => aa b p (cc true q (aa true q w)) e)))), cre_scale, !cre_bsum. match goal with |- smul half (sadd ?x (smul (sopp s1) ?y)) = _ => transitivity (smul half (ssub x y)); [ring|reflexivity] end.
    - intros e'. rewrite (ann_pt _ _ (fun e => smul half (sadd (bsum O (fun q => cc false q (aa false q w) e)) (smul (sopp s1) (bsum O (fun q => cc true q (aa true q w) e)))))) by (intros e''; rewrite Ez; ring).
      rewrite ann_scale, (ann_add _ (fun e => bsum O (fun q => cc false q (aa false q w) e)) (fun e => smul (sopp s1) (bsum O (fun q => cc true q (aa true q w) e)))), ann_scale, !ann_bsum. reflexivity. }
  assert (E2 : s_z K nf n half (s_z K nf n half w) d = smul (smul half half) (sadd (sadd (N1 false d) (N1 true d)) (sadd (ssub (D2 false false d) (D2 false true d)) (ssub (D2 true true d) (D2 true false d))))).
  { rewrite Ez. rewrite (bsum_ext K O _ _ (fun p _ => L false p d)), (bsum_ext K O (fun p => cc true p _ d) _ (fun p _ => L true p d)).
    rewrite <- !bsum_mul_l.
    assert (S : forall F G : nat * nat -> nat * nat -> K, bsum O (fun p => ssub (bsum O (fun q => F p q)) (bsum O (fun q => G p q))) = ssub (bo2 F) (bo2 G)).
    { intros F G. transitivity (sadd (bo2 F) (smul (sopp s1) (bo2 G))); [|ring]. unfold bo2. rewrite bsum_mul_l, <- bsum_add. apply bsum_ext. intros p _. ring. }
    rewrite (S (fun p q => cc false p (aa false p (cc false q (aa false q w))) d) (fun p q => cc false p (aa false p (cc true q (aa true q w))) d)).
    rewrite (S (fun p q => cc true p (aa true p (cc false q (aa false q w))) d) (fun p q => cc true p (aa true p (cc true q (aa true q w))) d)).
    rewrite !nn. cbn [Bool.eqb]. ring. }
  unfold s_squared, vadd. rewrite E1, E2, Ez. fold (N1 false d) (N1 true d).
  unfold gsum, gsum1, gsum2. cbn [seq bsum].
  assert (G1 : forall s, s < 2 -> bsum O (fun p => bsum O (fun q => smul (sx K half (X1 s p q)) (g (X1 s p q) d))) = smul (smul (three (K := K)) (quarter half)) (N1 (down s) d)).
  { intros s Hs. cbn [sx]. exact (delta_pq _ (fun p q => g (X1 s p q) d)). }
  assert (G2 : forall b, b = 0 \/ b = 3 -> bsum O (fun p => bsum O (fun q => bsum O (fun r => bsum O (fun u => smul (sx K half (X2 b p q r u)) (g (X2 b p q r u) d))))) = smul (quarter half) (D2 (down (b / 2)) (down (b mod 2)) d)).
  { intros b Hb. etransitivity; [|exact (delta_pqru (quarter half) (fun p q r u => g (X2 b p q r u) d))]. apply bo2_ext. intros p q _ _. apply bo2_ext. intros r u _ _. cbn [sx]. destruct Hb as [-> | ->]; reflexivity. }
  assert (G3 : forall b, b = 1 \/ b = 2 -> bsum O (fun p => bsum O (fun q => bsum O (fun r => bsum O (fun u => smul (sx K half (X2 b p q r u)) (g (X2 b p q r u) d))))) =
     sadd (smul (sopp (quarter half)) (D2 (down (b / 2)) (down (b mod 2)) d)) (smul (sopp half) (X2s (down (b / 2)) (down (b mod 2)) d))).
  { intros b Hb.
    transitivity (sadd (bo2 (fun p q => bo2 (fun r u => smul (if oeq p q && oeq r u then sopp (quarter half) else s0) (g (X2 b p q r u) d))))
       (bo2 (fun p q => bo2 (fun r u => smul (if oeq p u && oeq r q then sopp half else s0) (g (X2 b p q r u) d))))).
    - rewrite <- bo2_add. apply bo2_ext. intros p q _ _. rewrite <- bo2_add. apply bo2_ext. intros r u _ _.
      replace (sx K half (X2 b p q r u)) with (ssub (if oeq p q && oeq r u then sopp (quarter half) else s0) (if oeq p u && oeq r q then half else s0)) by (destruct Hb as [-> | ->]; reflexivity).
      destruct (oeq p u && oeq r q); ring.
    - f_equal; [exact (delta_pqru (sopp (quarter half)) (fun p q r u => g (X2 b p q r u) d))|exact (delta_puqr (sopp half) (fun p q r u => g (X2 b p q r u) d))]. }
  rewrite (G1 0), (G1 1), (G2 0), (G3 1), (G3 2), (G2 3) by (auto; lia). cbn [down Nat.div Nat.modulo Nat.divmod Nat.sub fst snd Nat.eqb negb].
  rewrite X2_sym. unfold three, quarter.
  set (a := N1 false d). set (b := N1 true d). set (x := X2s true false d). set (d00 := D2 false false d). set (d01 := D2 false true d). set (d10 := D2 true false d). set (d11 := D2 true true d).
  replace b with (smul (smul (sadd half half) (sadd half half)) b) at 1 by (rewrite Hhalf; ring).
  replace (ssub (smul (smul (sadd half half) (sadd half half)) b) x) with (ssub (smul (smul (sadd half half) (sadd half half)) b) (smul (sadd half half) x)) by (rewrite Hhalf; ring).
  replace (smul half (ssub a b)) with (smul (smul half (sadd half half)) (ssub a b)) by (rewrite Hhalf; ring).
  ring.
Qed.

Variables (h1 : nat -> nat * nat -> nat * nat -> K) (h2 : nat * nat -> nat * nat -> nat * nat -> nat * nat -> K).
Definition spin (s : bool) : nat := if s then 1 else 0.
(** hx pairs h1[q,p] with p' q and h2[q,p,u,r] with p' r' u q *)
Lemma ham_sum d : hamiltonian K nf n half (fun s p q => h1 (spin s) q p) (fun p q r u => h2 q p u r) w d = gsum nf n (fun x => smul (hx K half h1 h2 x) (gops K nf n (xops x) w d)).
Proof.
  unfold hamiltonian, vadd, vscale, vsum. rewrite orbitals_is. unfold gsum. f_equal.
  unfold gsum2. cbn [seq bsum].
    assert (Q : forall s t b, b < 4 -> down (b / 2) = s -> down (b mod 2) = t ->
      smul half (bsum O (fun p => bsum O (fun q => bsum O (fun r => bsum O (fun u => smul (h2 q p u r) (cc s p (cc t r (aa t u (aa s q w))) d)))))) =
      bsum O (fun p => bsum O (fun q => bsum O (fun r => bsum O (fun u => smul (hx K half h1 h2 (X2 b p q r u)) (g (X2 b p q r u) d)))))).
    { intros s t b _ <- <-. rewrite bsum_mul_l. apply bsum_ext. intros p _. rewrite bsum_mul_l. apply bsum_ext. intros q _. rewrite bsum_mul_l. apply bsum_ext. intros r _. rewrite bsum_mul_l. apply bsum_ext. intros u _.
      transitivity (smul (smul half (h2 q p u r)) (cc (down (b / 2)) p (cc (down (b mod 2)) r (aa (down (b mod 2)) u (aa (down (b / 2)) q w))) d)); [ring|reflexivity]. }
    rewrite <- (Q false false 0), <- (Q false true 1), <- (Q true false 2), <- (Q true true 3) by (reflexivity || lia). ring.
Qed.
End Ops.

Section Elem.
Variable K : star_ring.
Add Ring Kr2 : (sring K).
Variables (nf : nat) (n : nat -> nat) (u w : vec K).
Lemma inner_gsum (c : tix -> K) : inner K (2 * norb nf n) u (fun d => gsum nf n (fun x => smul (c x) (gops K nf n (xops x) w d))) = gsum nf n (fun x => smul (c x) (inner K (2 * norb nf n) u (gops K nf n (xops x) w))).
Proof.
  unfold inner. transitivity (bsum (dets (2 * norb nf n)) (fun d => gsum nf n (fun x => smul (c x) (smul (sconj (u d)) (gops K nf n (xops x) w d))))).
  - apply bsum_ext. intros d _. rewrite gsum_mul_l. apply gsum_ext. intros x. ring.
  - rewrite <- gsum_bsum. apply gsum_ext. intros x. symmetry. apply bsum_mul_l.
Qed.
End Elem.
