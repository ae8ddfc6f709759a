(** C34, C35: energies and pair densities of product states. *)
From Coq Require Import List Arith Bool Lia Ring QArith Qcanon.
From Verif Require Import BaseFacts Star ProdModel ProdSpec ProdFacts ProdEnergy.
Import ListNotations.
Close Scope Qc_scope. Close Scope Q_scope.
Local Open Scope nat_scope.
Local Open Scope star_scope.

Section P.
Context {K : star_ring}.
Add Ring Kring : (sring K).
Notation pf := (pfrag K).

(** ** C34.  The effective Hamiltonian of fragment number f (h1eff, h0eff from project_hfrag, and the
    fragment's block of h2), evaluated on the fragment's own densities, gives the total energy.
    The densities need no symmetry. *)
Theorem C34_own_energy : forall half ecore h1 (h2 : T4 K) (fr : list pf) f F h1eff h0eff,
  (forall p q r s, h2 p q r s = h2 r s p q) ->
  nth_error fr f = Some F -> nth_error (project_hfrag half ecore h1 h2 fr) f = Some (h1eff, h0eff) ->
  frag_energy half h0eff h1eff (local_h2 (first_orb fr f) h2) F = energy_elec half ecore h1 h2 fr.
Proof.
  intros half ecore h1 h2 fr f F h1eff h0eff HX HF HP. rewrite (project_nth half ecore h1 h2 fr f F HF) in HP.
  pose proof (own_energy half ecore h1 h2 HX fr f F HF) as E. cbn zeta in E.
  destruct (project_frag _ _ _ _ _ _) as [a b]. inversion HP; subst. exact E.
Qed.

(** ** C34.  Evaluated on the densities of any trial state of the fragment, the same effective
    Hamiltonian gives the total energy of the product state with that fragment replaced: minimising
    the fragment energy is minimising the total energy. *)
Theorem C34_trial_energy : forall half ecore h1 (h2 : T4 K) (l1 l2 : list pf) F F' h1eff h0eff,
  half + half = s1 -> (forall p q r s, h2 p q r s = h2 r s p q) ->
  p_no F' = p_no F -> Forall sym_frag (l1 ++ F :: l2) -> sym_frag F' ->
  nth_error (project_hfrag half ecore h1 h2 (l1 ++ F :: l2)) (length l1) = Some (h1eff, h0eff) ->
  frag_energy half h0eff h1eff (local_h2 (list_sum (map p_no l1)) h2) F' = energy_elec half ecore h1 h2 (l1 ++ F' :: l2).
Proof.
  intros half ecore h1 h2 l1 l2 F F' h1eff h0eff Hh HX Hn HS HS' HP.
  assert (HF : nth_error (l1 ++ F :: l2) (length l1) = Some F) by (rewrite nth_error_app2, Nat.sub_diag by lia; auto).
  rewrite (project_nth half ecore h1 h2 _ _ F HF) in HP.
  pose proof (trial_energy half ecore h1 h2 HX Hh l1 l2 F F' Hn HS HS') as E. cbn zeta in E.
  destruct (project_frag _ _ _ _ _ _) as [a b]. inversion HP; subst. cbn [fst snd] in E.
  assert (FO : first_orb (l1 ++ F :: l2) (length l1) = list_sum (map p_no l1)).
  { unfold first_orb. rewrite firstn_app, Nat.sub_diag, firstn_all. cbn [firstn]. rewrite app_nil_r. auto. }
  rewrite FO in E. exact E.
Qed.

(** ** C35.  Elements of the two-body density, fragment by fragment. *)
Lemma orb_split (fr : list pf) p : p < norb fr -> exists f b, nth_error (blocks fr) f = Some b /\ In p (blk b).
Proof.
  intros H. assert (I : In p (seq 0 (norb fr))) by (apply in_seq; lia). rewrite all_orbs in I.
  apply in_flat_map in I as (b & Ib & Ip). apply In_nth_error in Ib as [f Hf]. eauto.
Qed.
Lemma frag_block (fr : list pf) f F x : nth_error fr f = Some F -> x < p_no F ->
  nth_error (blocks fr) f = Some (first_orb fr f, F) /\ inb (first_orb fr f, F) (first_orb fr f + x)%nat = true.
Proof.
  intros HF Hx. split; [apply blocks_nth; auto|]. apply inb_iff. unfold blk. cbn [fst snd]. apply in_seq. lia.
Qed.

Theorem C35_elements : forall (fr : list pf) f g h k F G H J x y z w,
  nth_error fr f = Some F -> nth_error fr g = Some G -> nth_error fr h = Some H -> nth_error fr k = Some J ->
  x < p_no F -> y < p_no G -> z < p_no H -> w < p_no J ->
  make_rdm2 fr (first_orb fr f + x)%nat (first_orb fr g + y)%nat (first_orb fr h + z)%nat (first_orb fr k + w)%nat =
  if (f =? g) && (h =? k) then
    if f =? h then p_d2 F x y z w
    else (p_d1 F false x y + p_d1 F true x y) * (p_d1 H false z w + p_d1 H true z w)
  else if (f =? k) && (g =? h) then - (p_d1 F false x w * p_d1 G false y z + p_d1 F true x w * p_d1 G true y z)
  else s0.
Proof.
  intros fr f g h k F G H J x y z w HF HG HH HJ Hx Hy Hz Hw.
  destruct (frag_block fr f F x HF Hx) as [B1 I1]. destruct (frag_block fr g G y HG Hy) as [B2 I2].
  destruct (frag_block fr h H z HH Hz) as [B3 I3]. destruct (frag_block fr k J w HJ Hw) as [B4 I4].
  rewrite (dm2_at_ fr f g h k _ _ _ _ _ _ _ _ B1 B2 B3 B4 I1 I2 I3 I4). unfold dm2_val, D2b, Db. cbn [fst snd].
  assert (S : forall a b, (a + b - a = b)%nat) by (intros; lia).
  rewrite !S.
  destruct (Nat.eqb_spec f g); cbn [andb].
  - subst g. destruct (Nat.eqb_spec h k); cbn [andb].
    + subst k. destruct (Nat.eqb_spec f h); [subst h|]; rewrite ?S; auto.
    + destruct (Nat.eqb_spec f k); cbn [andb]; auto. destruct (Nat.eqb_spec f h); auto. congruence.
  - destruct (Nat.eqb_spec f k); cbn [andb]; auto. subst k. destruct (Nat.eqb_spec g h); auto. subst h. rewrite ?S; auto.
Qed.

(** every orbital belongs to a fragment *)
Lemma orb_frag (fr : list pf) p : p < norb fr -> exists f F x, nth_error fr f = Some F /\ x < p_no F /\ p = (first_orb fr f + x)%nat.
Proof.
  intros H. destruct (orb_split fr p H) as (f & b & Hb & Hp).
  destruct (nth_error fr f) as [F|] eqn:EF.
  - rewrite (blocks_nth fr f F EF) in Hb. inversion Hb; subst. unfold blk in Hp. cbn [fst snd] in Hp. apply in_seq in Hp.
    exists f, F, (p - first_orb fr f)%nat. unfold first_orb. repeat split; auto; lia.
  - apply nth_error_None in EF. apply nth_error_Some_lt in Hb. rewrite blocks_length in Hb. lia.
Qed.

(** ** C35: symmetry under exchange of the two electron pairs *)
Theorem C35_pair_exchange : forall (fr : list pf) p q r s,
  Forall sym_frag fr -> Forall pair_sym_frag fr ->
  p < norb fr -> q < norb fr -> r < norb fr -> s < norb fr ->
  make_rdm2 fr p q r s = make_rdm2 fr r s p q.
Proof.
  intros fr p q r s S1 S2 Hp Hq Hr Hs.
  destruct (orb_frag fr p Hp) as (f & F & x & HF & Hx & ->). destruct (orb_frag fr q Hq) as (g & G & y & HG & Hy & ->).
  destruct (orb_frag fr r Hr) as (h & H & z & HH & Hz & ->). destruct (orb_frag fr s Hs) as (k & J & w & HJ & Hw & ->).
  rewrite (C35_elements fr f g h k F G H J) by auto. rewrite (C35_elements fr h k f g H J F G) by auto.
  rewrite Forall_forall in S1, S2.
  assert (T1 := S1 _ (nth_error_In _ _ HF)). assert (T2 := S1 _ (nth_error_In _ _ HG)). assert (P1 := S2 _ (nth_error_In _ _ HF)).
  destruct (Nat.eqb_spec f g) as [Efg|Efg]; cbn [andb].
  - subst g. assert (G = F) by congruence. subst G. destruct (Nat.eqb_spec h k) as [Ehk|Ehk]; cbn [andb].
    + subst k. assert (J = H) by congruence. subst J. destruct (Nat.eqb_spec f h) as [Efh|Efh].
      * subst h. assert (H = F) by congruence. subst H. rewrite Nat.eqb_refl. apply P1; auto.
      * destruct (Nat.eqb_spec h f); [congruence|]. ring.
    + destruct (Nat.eqb_spec f k), (Nat.eqb_spec f h), (Nat.eqb_spec h f), (Nat.eqb_spec k f); cbn [andb]; try congruence; auto.
  - rewrite andb_false_r. destruct (Nat.eqb_spec f k) as [Efk|Efk]; cbn [andb].
    + subst k. assert (J = F) by congruence. subst J. destruct (Nat.eqb_spec g h) as [Egh|Egh].
      * subst h. assert (H = G) by congruence. subst H. rewrite !Nat.eqb_refl. cbn [andb].
        rewrite (T1 false x w), (T1 true x w), (T2 false y z), (T2 true y z) by auto. ring.
      * destruct (Nat.eqb_spec h g); [congruence|]. cbn [andb]. auto.
    + destruct (Nat.eqb_spec h g), (Nat.eqb_spec k f); cbn [andb]; try congruence; auto.
Qed.

(** ** C35: tracing the pair density over another fragment *)
Theorem C35_other_fragment_trace : forall (fr : list pf) f g F G x y, f <> g ->
  nth_error fr f = Some F -> nth_error fr g = Some G -> x < p_no F -> y < p_no F ->
  bsum (seq 0 (p_no G)) (fun z => make_rdm2 fr (first_orb fr f + x)%nat (first_orb fr f + y)%nat (first_orb fr g + z)%nat (first_orb fr g + z)%nat)
  = (p_d1 F false x y + p_d1 F true x y) * nelec_of G.
Proof.
  intros fr f g F G x y Hn HF HG Hx Hy. unfold nelec_of. rewrite bsum_mul_l. apply bsum_ext. intros z Hz. apply in_seq in Hz.
  rewrite (C35_elements fr f f g g F F G G) by (auto; lia). rewrite !Nat.eqb_refl. cbn [andb].
  destruct (Nat.eqb_spec f g); [congruence|]. auto.
Qed.
Theorem C35_inter_trace : forall (fr : list pf) f g F G, f <> g ->
  nth_error fr f = Some F -> nth_error fr g = Some G ->
  bsum (seq 0 (p_no F)) (fun x => bsum (seq 0 (p_no G)) (fun z =>
    make_rdm2 fr (first_orb fr f + x)%nat (first_orb fr f + x)%nat (first_orb fr g + z)%nat (first_orb fr g + z)%nat))
  = nelec_of F * nelec_of G.
Proof.
  intros fr f g F G Hn HF HG. unfold nelec_of at 1. rewrite bsum_mul_r. apply bsum_ext. intros x Hx. apply in_seq in Hx.
  apply C35_other_fragment_trace; auto; lia.
Qed.
(** sum over all orbitals = sum over fragments and their orbitals *)
Lemma sum_frags : forall (fr : list pf) (Q : nat -> K),
  bsum (seq 0 (norb fr)) Q = bsum (combine (seq 0 (length fr)) fr) (fun fF => bsum (seq 0 (p_no (snd fF))) (fun x => Q (first_orb fr (fst fF) + x)%nat)).
Proof.
  intros fr Q. rewrite all_orbs, bsum_flat_map.
  assert (E : blocks fr = map (fun fF => (first_orb fr (fst fF), snd fF)) (combine (seq 0 (length fr)) fr)).
  { apply list_ext. intros i. destruct (nth_error fr i) as [F|] eqn:EF.
    - rewrite (blocks_nth fr i F EF). symmetry.
      assert (EC : nth_error (combine (seq 0 (length fr)) fr) i = Some (i, F)).
      { assert (L : i < length fr) by (apply nth_error_Some_lt in EF; auto).
        clear -EF L. assert (G : forall (l : list pf) k i, nth_error l i = Some F -> nth_error (combine (seq k (length l)) l) i = Some ((k + i)%nat, F)).
        { induction l as [|a l IH]; intros k [|j] Hj; cbn in *; try discriminate.
          - inversion Hj; subst. rewrite Nat.add_0_r. auto. - rewrite (IH (S k) j Hj). do 2 f_equal. lia. }
        apply (G fr 0%nat i EF). }
      rewrite (map_nth_error (fun fF => (first_orb fr (fst fF), snd fF)) _ _ EC). reflexivity.
    - apply nth_error_None in EF. rewrite !(proj2 (nth_error_None _ _)); auto.
      + rewrite map_length, combine_length, seq_length. lia. + rewrite blocks_length. auto. }
  rewrite E, bsum_map. apply bsum_ext. intros [i F] _. cbn [fst snd]. unfold blk. cbn [fst snd].
  rewrite seq_shift_add, bsum_map. auto.
Qed.

(** ** C35: the total trace.  If every fragment's pair density traces to N_f (N_f - 1), the assembled
    one traces to N (N - 1) with N the sum of the N_f. *)
Theorem C35_total_trace : forall (fr : list pf),
  Forall (fun F => bsum (seq 0 (p_no F)) (fun x => bsum (seq 0 (p_no F)) (fun z => p_d2 F x x z z)) = nelec_of F * (nelec_of F - s1)) fr ->
  let N := bsum fr nelec_of in
  bsum (seq 0 (norb fr)) (fun p => bsum (seq 0 (norb fr)) (fun r => make_rdm2 fr p p r r)) = N * (N - s1).
Proof.
  intros fr HT N. rewrite sum_frags.
  set (I := combine (seq 0 (length fr)) fr).
  assert (NI : forall iF, In iF I -> nth_error fr (fst iF) = Some (snd iF)).
  { intros [i F] H. unfold I in H. cbn [fst snd]. clear -H.
    assert (G : forall (l : list pf) k, In (i, F) (combine (seq k (length l)) l) -> (k <= i)%nat /\ nth_error l (i - k)%nat = Some F).
    { induction l as [|a l IH]; intros k [].
      - inversion H0; subst. rewrite Nat.sub_diag. auto.
      - apply IH in H0 as [L E]. split; [lia|]. replace (i - k)%nat with (S (i - S k)) by lia. exact E. }
    apply G in H as [_ H]. rewrite Nat.sub_0_r in H. auto. }
  assert (ND : NoDup I).
  { unfold I. clear. generalize 0%nat. induction fr as [|a l IH]; intros k; cbn; constructor; auto.
    intros H. apply in_combine_l in H. apply in_seq in H. lia. }
  assert (FST : forall a b, In a I -> In b I -> fst a = fst b -> a = b).
  { intros [i F] [j G] Ha Hb E. cbn [fst] in E. subst j. apply NI in Ha, Hb. cbn [fst snd] in *. congruence. }
  assert (EN : N = bsum I (fun iF => nelec_of (snd iF))).
  { unfold N, I. clear. generalize 0%nat. induction fr as [|a l IH]; intros k; cbn [length seq combine bsum snd]; auto. rewrite (IH (S k)). auto. }
  transitivity (bsum I (fun a => nelec_of (snd a) * N - nelec_of (snd a))).
  - apply bsum_ext. intros [i F] Ha. cbn [fst snd].
    transitivity (bsum (seq 0 (p_no F)) (fun x => bsum I (fun b => bsum (seq 0 (p_no (snd b))) (fun z =>
      make_rdm2 fr (first_orb fr i + x)%nat (first_orb fr i + x)%nat (first_orb fr (fst b) + z)%nat (first_orb fr (fst b) + z)%nat)))).
    { apply bsum_ext. intros x _. apply (sum_frags fr (fun r => make_rdm2 fr (first_orb fr i + x)%nat (first_orb fr i + x)%nat r r)). }
    rewrite bsum_swap.
    assert (dec : forall x y : nat * pf, In x I -> In y I -> x = y \/ x <> y).
    { intros [i1 F1] [i2 F2] H1 H2. destruct (Nat.eq_dec i1 i2) as [E|E]; [left; apply FST; auto | right; congruence]. }
    assert (EF := NI _ Ha). cbn [fst snd] in EF.
    transitivity (bsum I (fun b => nelec_of F * nelec_of (snd b) - (if fst b =? i then nelec_of F else s0))).
    + apply bsum_ext. intros [j G] Hb. cbn [fst snd]. assert (EG := NI _ Hb). cbn [fst snd] in EG.
      destruct (Nat.eqb_spec j i).
      * subst j. assert (G = F) by congruence. subst G. rewrite Forall_forall in HT.
        transitivity (nelec_of F * (nelec_of F - s1)); [|ring]. rewrite <- (HT F (nth_error_In _ _ EF)).
        apply bsum_ext; intros x Hx. apply bsum_ext; intros z Hz. apply in_seq in Hx, Hz.
        rewrite (C35_elements fr i i i i F F F F) by (auto; lia). rewrite !Nat.eqb_refl. auto.
      * rewrite (C35_inter_trace fr i j F G) by auto. ring.
    + rewrite bsum_sub. f_equal; [rewrite <- bsum_mul_l, <- EN; auto|].
      rewrite (bsum_single K I _ (i, F) ND Ha); cbn [fst]; [rewrite Nat.eqb_refl; auto|].
      intros [j G] Hb Hne. cbn [fst]. destruct (Nat.eqb_spec j i); auto. destruct Hne. apply FST; auto.
  - rewrite bsum_sub, <- bsum_mul_r, <- EN. ring.
Qed.
End P.

(** ** Concrete cases over the rationals *)
Definition Qstar : star_ring :=
  mkStar Qc (Q2Qc 0) (Q2Qc 1) Qcplus Qcmult Qcminus Qcopp Qcrt (fun x => x)
    (fun _ _ => eq_refl) (fun _ _ => eq_refl) (fun _ => eq_refl).
Definition q (n : Z) (d : positive) : Qstar := Q2Qc (n # d).
Definition exF : pfrag Qstar := mkPF 2
  (fun s x y => if (x =? y)%nat then q (if s then 1 else 2) 3 else q 1 5)
  (fun x y z w => q (Z.of_nat (x * z + 3 * y * w + x * y + z * w)) 7).
Definition exG : pfrag Qstar := mkPF 1 (fun s _ _ => q (if s then 1 else 3) 2) (fun _ _ _ _ => q 2 1).
Definition exF' : pfrag Qstar := mkPF 2
  (fun s x y => if (x =? y)%nat then q (Z.of_nat (x + 1)) 2 else if s then q 1 9 else q (-1) 4)
  (fun x y z w => q (Z.of_nat (x + z)) 3).
Definition exh1 : bool -> T2 Qstar := fun s p r => q (Z.of_nat (p * r + p + 2 * r) + if s then 3 else 0) 2.
Definition exh2 : T4 Qstar := fun p r s t => q (Z.of_nat ((p + 3 * r + 1) * (s + 3 * t + 1))) 4.

Definition trial (F1 : pfrag Qstar) : option (Q * Q) :=
  match nth_error (project_hfrag (q 1 2) (q 7 1) exh1 exh2 [exG; exF]) 1 with
  | Some (h1eff, h0eff) => Some (this (frag_energy (q 1 2) h0eff h1eff (local_h2 1 exh2) F1), this (energy_elec (q 1 2) (q 7 1) exh1 exh2 [exG; F1]))
  | None => None end.
(** own densities and a trial state, for the second of two fragments; the energies differ *)
Example C34_case_own : trial exF = Some ((5573 # 120), (5573 # 120))%Q.
Proof. vm_compute. reflexivity. Qed.
Example C34_case_trial : trial exF' = Some ((8177 # 144), (8177 # 144))%Q.
Proof. vm_compute. reflexivity. Qed.

(** two fragments over the integers: N_f = 2 and 3 electrons *)
Definition zF : pfrag Zstar := @mkPF Zstar 2 (fun s x y => if (x =? y)%nat then (if (x =? 0)%nat then 1%Z else 0%Z) else 0%Z)
  (fun x y z w => if ((x =? 0) && (y =? 0) && (z =? 0) && (w =? 0))%nat%bool then 2%Z else 0%Z).
Definition zG : pfrag Zstar := @mkPF Zstar 1 (fun s _ _ => if s then 1%Z else 2%Z) (fun _ _ _ _ => 6%Z).
Example C35_case_trace : bsum (seq 0 3) (fun p => bsum (seq 0 3) (fun r => make_rdm2 [zF; zG] p p r r)) = 20%Z.
Proof. vm_compute. reflexivity. Qed.
Example C35_case_elements : (make_rdm2 [zF; zG] 0 0 2 2, make_rdm2 [zF; zG] 0 2 2 0, make_rdm2 [zF; zG] 2 0 0 2, make_rdm2 [zF; zG] 0 2 0 2)
  = (6, -3, -3, 0)%Z.
Proof. vm_compute. reflexivity. Qed.

Print Assumptions C34_own_energy.
Print Assumptions C34_trial_energy.
Print Assumptions C35_elements.
Print Assumptions C35_pair_exchange.
Print Assumptions C35_other_fragment_trace.
Print Assumptions C35_inter_trace.
Print Assumptions C35_total_trace.
