(** Properties C22-C24: CI-vector layout. *)
From Coq Require Import List ZArith Arith Bool Lia Sorting.Sorted.
From Verif Require Import Base BaseFacts Star Anti SignsModel AddrSpec DetModel DetFacts DetDummy DetSpinless DetSpec DetProd.
Import ListNotations.
Local Open Scope nat_scope.

(** ** C22 spectator orbital *)

(** Where amplitudes go: the coefficient of a determinant of norb+1 orbitals is that of the
    determinant without the last orbital (times a sign) if the last orbital has the requested
    occupation, and zero otherwise. *)
Theorem C22_amplitudes (K : star_ring) norb na nb oa ob (c : mat K) s t xa xb :
  length s = norb -> length t = norb ->
  count (s ++ [xa]) = na + b2n oa -> count (t ++ [xb]) = nb + b2n ob ->
  let p := dummy_orbital_params norb (na, nb) oa ob in
  add_one p c (addr (norb + 1) (na + b2n oa) (s ++ [xa])) (addr (norb + 1) (nb + b2n ob) (t ++ [xb]))
  = if eqb xa oa && eqb xb ob then sgn_mul (p_neg p) (c (addr norb na s) (addr norb nb t)) else s0.
Proof.
  intros Hs Ht Hca Hcb p. rewrite count_app in Hca, Hcb.
  assert (B : forall x, count [x] = b2n x) by (intros []; reflexivity). rewrite B in Hca, Hcb.
  rewrite <- Hca, <- Hcb, !addr_top by auto. unfold p. rewrite add_one_at; auto; try (apply addr_lt; auto).
  destruct (eqb_spec xa oa), (eqb_spec xb ob); cbn [andb]; auto. subst.
  replace (count s) with na by lia. replace (count t) with nb by lia. auto.
Qed.
Print Assumptions C22_amplitudes.

(** The sign is that of moving the new beta operator past the alpha operators. *)
Theorem C22_sign {L} norb oa ob (ya yb : L) (A B : list L) : NoDup (ya :: yb :: A ++ B) ->
  anti (p_neg (dummy_orbital_params norb (length A, length B) oa ob))
    ((if oa then [ya] else []) ++ (if ob then [yb] else []) ++ A ++ B)
    ((if oa then [ya] else []) ++ A ++ (if ob then [yb] else []) ++ B).
Proof. exact (neg_anti norb oa ob ya yb A B). Qed.
Print Assumptions C22_sign.

Definition same_mat {K : star_ring} norb (ne : nat * nat) (m1 m2 : mat K) : Prop :=
  forall a b, a < num_strings norb (fst ne) -> b < num_strings norb (snd ne) -> m1 a b = m2 a b.

Theorem C22_round_trip (K : star_ring) (ci : civ K) norb ne oa ob :
  Forall2 (same_mat norb ne) (mats (read_orbital (add_orbital ci norb ne oa ob) norb ne oa ob)) (mats ci).
Proof.
  unfold read_orbital, add_orbital. rewrite !repack_mats, map_map. destruct ne as [na nb].
  induction (mats ci) as [|m l IH]; cbn [map]; constructor; auto.
  intros a b Ha Hb. apply read_add; auto.
Qed.
Print Assumptions C22_round_trip.

Theorem C22_other_occupation (K : star_ring) (ci : civ K) norb na nb oa ob na' nb' oa' ob' :
  na' + b2n oa' = na + b2n oa -> nb' + b2n ob' = nb + b2n ob -> (oa', ob') <> (oa, ob) ->
  Forall (fun m => same_mat norb (na', nb') m (fun _ _ => s0))
    (mats (read_orbital (add_orbital ci norb (na, nb) oa ob) norb (na', nb') oa' ob')).
Proof.
  intros Ea Eb Hne. unfold read_orbital, add_orbital. rewrite !repack_mats, map_map.
  apply Forall_map, Forall_forall. intros m _ a b Ha Hb. cbn [fst snd] in *. apply read_add_other; auto.
Qed.
Print Assumptions C22_other_occupation.

(** The container is kept, except that a container with one vector is unwrapped. *)
Theorem C22_container (K : star_ring) (ci : civ K) norb ne oa ob :
  match read_orbital (add_orbital ci norb ne oa ob) norb ne oa ob, ci with
  | Mat _, _ => length (mats ci) = 1
  | Arr3 l, Arr3 l0 | PyList l, PyList l0 | PyTuple l, PyTuple l0 => length l = length l0
  | _, _ => False
  end.
Proof.
  unfold read_orbital, add_orbital.
  destruct ci as [m|[|m [|m' l]]|[|m [|m' l]]|[|m [|m' l]]]; cbn; try reflexivity; rewrite !map_length; reflexivity.
Qed.
Print Assumptions C22_container.

Local Open Scope Z_scope.
Definition c22_m : mat Zstar := fun a b => Z.of_nat (10 * a + b + 1).
Example C22_example :
  map (fun a => map (add_one (dummy_orbital_params 2 (1, 1)%nat true true) c22_m a) [0; 1; 2]%nat) [0; 1; 2]%nat
    = [[0; 0; 0]; [0; -1; -2]; [0; -11; -12]] /\
  map (fun a => map (add_one (dummy_orbital_params 2 (1, 0)%nat false true) c22_m a) [0; 1]%nat) [0; 1]%nat
    = [[0; 0]; [0; 0]] /\
  add_one (dummy_orbital_params 2 (1, 0)%nat false true) c22_m 1%nat 2%nat = -11.
Proof. vm_compute. auto. Qed.
Local Close Scope Z_scope.

(** ** C23 spinless representation *)

Theorem C23_total nelec_r : forall n, common_nelec nelec_r = Ok n <->
  (nelec_r <> [] /\ Forall (fun ne => fst ne + snd ne = n) nelec_r).
Proof.
  intros n. unfold common_nelec. destruct nelec_r as [|ne r]; cbn [map].
  - split; [discriminate|]. intros [[] _]; reflexivity.
  - destruct (forallb (Nat.eqb (fst ne + snd ne)) (map (fun ne => fst ne + snd ne) r)) eqn:F.
    + rewrite forallb_forall in F. split.
      * intros [= <-]. split; [discriminate|]. constructor; auto. apply Forall_forall. intros x Hx.
        symmetry. apply Nat.eqb_eq, F. apply in_map_iff; eauto.
      * intros [_ H]. apply Forall_cons_iff in H as [-> _]. reflexivity.
    + split; [discriminate|]. intros [_ H]. exfalso. apply Forall_cons_iff in H as [Hn H].
      rewrite <- not_true_iff_false in F. apply F. apply forallb_forall. intros x Hx.
      apply in_map_iff in Hx as (y & <- & Hy). rewrite Forall_forall in H. rewrite (H y Hy). apply Nat.eqb_eq; auto.
Qed.
Print Assumptions C23_total.

(** The amplitude of the alpha string [s] and beta string [t] goes to the spinless determinant whose
    lower half is [s] and whose upper half is [t], with the sign of the change of operator order. *)
Theorem C23_amplitudes (K : star_ring) norb na nb (c : mat K) s t :
  length s = norb -> length t = norb -> count s + count t = na + nb ->
  ss2spinless norb (na + nb) (na, nb) c (addr (2 * norb) (na + nb) (s ++ t))
  = if Nat.eqb (count s) na then sgn_mul (odd_spins (na, nb)) (c (addr norb na s) (addr norb nb t)) else s0.
Proof.
  intros Hs Ht E. destruct (Nat.eqb_spec (count s) na) as [Ha|Ha].
  - apply ss_at; auto; lia.
  - apply (ss_other norb na nb (count s) (count t)); auto.
Qed.
Print Assumptions C23_amplitudes.

Theorem C23_sign {L} (A B : list L) : NoDup (A ++ B) ->
  anti (odd_spins (length A, length B)) (A ++ B) (B ++ A).
Proof. exact (odd_spins_anti A B). Qed.
Print Assumptions C23_sign.

Theorem C23_round_trip (K : star_ring) norb na nb (c : mat K) :
  same_mat norb (na, nb)
    (spinless2ss norb (na + nb) (na, nb) (ss2spinless norb (na + nb) (na, nb) c)) c.
Proof. intros a b Ha Hb. apply round_trip; auto. Qed.
Print Assumptions C23_round_trip.

Theorem C23_disjoint (K : star_ring) norb na nb na' nb' (c : mat K) :
  na' + nb' = na + nb -> (na', nb') <> (na, nb) ->
  same_mat norb (na', nb')
    (spinless2ss norb (na + nb) (na', nb') (ss2spinless norb (na + nb) (na, nb) c)) (fun _ _ => s0).
Proof. intros E Hne a b Ha Hb. apply disjoint; auto. Qed.
Print Assumptions C23_disjoint.

(** Every spinless determinant belongs to one alpha/beta count and one pair of strings. *)
Theorem C23_cover norb n x : x < num_strings (2 * norb) n ->
  exists! st : det * det, length (fst st) = norb /\ length (snd st) = norb /\
    count (fst st) + count (snd st) = n /\ x = addr (2 * norb) n (fst st ++ snd st).
Proof.
  intros H. destruct (cover norb n x H) as (na & nb & s & t & E & H1 & H2 & H3 & H4 & H5).
  exists (s, t). cbn [fst snd]. split; [subst; auto|]. intros [s' t'] (A1 & A2 & A3 & A4). cbn [fst snd] in *.
  rewrite H5 in A4. apply addr_inj in A4.
  - apply (f_equal (fun l => (firstn norb l, skipn norb l))) in A4.
    rewrite !firstn_app, !skipn_app, H1, A1, !Nat.sub_diag in A4. cbn [firstn skipn] in A4.
    rewrite !app_nil_r, (firstn_all2 s), (firstn_all2 s'), (skipn_all2 s), (skipn_all2 s') in A4 by lia. exact A4.
  - rewrite app_length; lia.
  - rewrite count_app; lia.
  - rewrite app_length; lia.
  - rewrite count_app; lia.
Qed.
Print Assumptions C23_cover.

Local Open Scope Z_scope.
Example C23_example :
  map (ss2spinless (K:=Zstar) 2 2 (1, 1)%nat c22_m) (seq 0 6) = [0; -1; -11; -2; -12; 0] /\
  map (ss2spinless (K:=Zstar) 2 2 (2, 0)%nat c22_m) (seq 0 6) = [1; 0; 0; 0; 0; 0].
Proof. vm_compute. auto. Qed.
Local Close Scope Z_scope.

(** ** C24 product-state addresses *)

Definition feasible (norb_f nelec_f : list nat) : Prop := Forall2 (fun n e => e <= n) norb_f nelec_f.

(** exactly the strings assembled from one string per fragment *)
Theorem C24_members norb_f nelec_f : feasible norb_f nelec_f ->
  forall x, In x (addr_outer_product norb_f nelec_f) <->
    exists s, made_of (combine norb_f nelec_f) s /\ addr (sumN norb_f) (sumN nelec_f) s = x.
Proof.
  intros H x. rewrite outer_product_list by auto. rewrite in_map_iff.
  split; intros (s & A & B); exists s; (split; [|]; auto); apply in_fprod; auto.
Qed.
Print Assumptions C24_members.

Theorem C24_increasing norb_f nelec_f : feasible norb_f nelec_f ->
  StronglySorted lt (addr_outer_product norb_f nelec_f).
Proof.
  intros F. rewrite outer_product_list by auto. apply map_addr_sorted; [apply fprod_sorted|].
  intros s Hs. apply in_fprod, made_of_len in Hs. unfold tot_n, tot_e in Hs.
  rewrite combine_map_fst, combine_map_snd in Hs by (eapply Forall2_length; eauto). auto.
Qed.
Print Assumptions C24_increasing.

(** the order: last fragment slowest *)
Theorem C24_order norb_f nelec_f : feasible norb_f nelec_f ->
  addr_outer_product norb_f nelec_f
  = map (addr (sumN norb_f) (sumN nelec_f)) (fprod (combine norb_f nelec_f)).
Proof. exact (outer_product_list norb_f nelec_f). Qed.
Print Assumptions C24_order.

(** The product vectors: in product state (l_1, ..., l_n), numbered with the first fragment fastest,
    the amplitude of a determinant assembled from fragment strings is the product of the fragments'
    amplitudes; all other amplitudes vanish. *)
Theorem C24_product_amplitude (K : star_ring) (cs : list (choice K)) g :
  Forall good_choice cs -> ci_outer_product (map c_f cs) = Ok g ->
  g (colmajor (map f_l (map c_f cs)) (map c_l cs))
    (addr (sumN (map f_norb (map c_f cs))) (sumN (map f_na (map c_f cs))) (concat (map c_sa cs)))
    (addr (sumN (map f_norb (map c_f cs))) (sumN (map f_nb (map c_f cs))) (concat (map c_sb cs)))
  = fold_right smul s1 (map amplitude cs).
Proof.
  intros H Hg. destruct (rev cs) as [|c0 rcs] eqn:R.
  - apply (f_equal (@rev _)) in R. rewrite rev_involutive in R. subst cs. discriminate.
  - apply (f_equal (@rev _)) in R. rewrite rev_involutive in R. cbn [rev] in R.
    assert (EQ : exists cs0, cs = cs0 ++ [c0]) by eauto. destruct EQ as (cs0 & EQ). clear R. subst cs.
    unfold ci_outer_product in Hg. 
    assert (D : ci_dp (map c_f (cs0 ++ [c0])) = Ok (dpr (map c_f cs0) (c_f c0))).
    { rewrite map_app. apply ci_dp_eq. }
    rewrite D in Hg. cbn [bind] in Hg. injection Hg as <-.
    unfold addrs_a, addrs_b. rewrite (index_addr f_na c_sa), (index_addr f_nb c_sb).
    + rewrite map_map. apply dpr_at; auto.
    + eapply Forall_impl; [|exact H]. intros c (? & ? & ? & ? & ?); auto.
    + eapply Forall_impl; [|exact H]. intros c (? & ? & ? & ? & ?); auto.
Qed.
Print Assumptions C24_product_amplitude.

Theorem C24_elsewhere_zero (K : star_ring) (fs : list (frag K)) g :
  feasible (map f_norb fs) (map f_na fs) -> feasible (map f_norb fs) (map f_nb fs) ->
  ci_outer_product fs = Ok g ->
  forall l u v,
  length u = sumN (map f_norb fs) -> count u = sumN (map f_na fs) ->
  length v = sumN (map f_norb fs) -> count v = sumN (map f_nb fs) ->
  ~ (made_of (combine (map f_norb fs) (map f_na fs)) u /\ made_of (combine (map f_norb fs) (map f_nb fs)) v) ->
  g l (addr (sumN (map f_norb fs)) (sumN (map f_na fs)) u) (addr (sumN (map f_norb fs)) (sumN (map f_nb fs)) v) = s0.
Proof.
  intros Fa Fb Hg l u v Hu1 Hu2 Hv1 Hv2 H. unfold ci_outer_product in Hg.
  destruct (ci_dp fs) as [dp|e]; [|discriminate]. cbn [bind] in Hg. injection Hg as <-.
  unfold addrs_a, addrs_b.
  destruct (index_of _ (addr_outer_product (map f_norb fs) (map f_na fs))) as [i|] eqn:Ei; auto.
  destruct (index_of _ (addr_outer_product (map f_norb fs) (map f_nb fs))) as [j|] eqn:Ej; auto.
  exfalso. apply index_of_Some, nth_error_In in Ei. apply index_of_Some, nth_error_In in Ej.
  assert (G : forall norb_f nelec_f w, feasible norb_f nelec_f -> length w = sumN norb_f -> count w = sumN nelec_f ->
    In (addr (sumN norb_f) (sumN nelec_f) w) (addr_outer_product norb_f nelec_f) -> made_of (combine norb_f nelec_f) w).
  { intros norb_f nelec_f w F W1 W2 HI. apply C24_members in HI as (s & Hs & E); auto.
    pose proof (made_of_len _ _ Hs) as [L1 L2]. unfold tot_n, tot_e in L1, L2.
    rewrite combine_map_fst in L1 by (eapply Forall2_length; eauto).
    rewrite combine_map_snd in L2 by (eapply Forall2_length; eauto).
    apply addr_inj in E; auto. subst; auto. }
  apply H. split; apply G; auto.
Qed.
Print Assumptions C24_elsewhere_zero.

(** dotter returns the overlaps of the product vectors with a given CI vector. *)
Theorem C24_dotter (K : star_ring) (fs : list (frag K)) c1 ne d g :
  feasible (map f_norb fs) (map f_na fs) -> feasible (map f_norb fs) (map f_nb fs) ->
  dotter fs c1 ne = Ok d -> ci_outer_product fs = Ok g ->
  forall l, d l = if Nat.eqb (fst ne) (sumN (map f_na fs)) && Nat.eqb (snd ne) (sumN (map f_nb fs))
                  then bsum (seq 0 (num_strings (sumN (map f_norb fs)) (fst ne))) (fun a =>
                       bsum (seq 0 (num_strings (sumN (map f_norb fs)) (snd ne))) (fun b =>
                       smul (g l a b) (c1 a b)))
                  else s0.
Proof.
  intros Fa Fb Hd Hg l. unfold dotter in Hd. destruct (ci_dp fs) as [dp|] eqn:D; [|discriminate]. cbn [bind] in Hd.
  destruct (Nat.eqb_spec (fst ne) (sumN (map f_na fs))) as [->|]; cbn [andb] in *; [|injection Hd as <-; auto].
  destruct (Nat.eqb_spec (snd ne) (sumN (map f_nb fs))) as [->|]; [|injection Hd as <-; auto].
  injection Hd as <-. apply dotter_eq; auto.
Qed.
Print Assumptions C24_dotter.

Local Open Scope Z_scope.
Definition c24_f1 : frag Zstar := mkFrag (K:=Zstar) 2 2 1 0 (fun l a b => 1 + Z.of_nat a + 10 * Z.of_nat l).
Definition c24_f2 : frag Zstar := mkFrag (K:=Zstar) 1 1 0 1 (fun l a b => 7).
Definition c24_f3 : frag Zstar := mkFrag (K:=Zstar) 1 2 1 0 (fun l a b => 100 + Z.of_nat a).
Example C24_example :
  addr_outer_product [2; 1; 2]%nat [1; 0; 1]%nat = [3; 4; 6; 7]%nat /\
  addr_outer_product [2; 1; 2]%nat [0; 1; 0]%nat = [2]%nat /\
  match ci_outer_product [c24_f1; c24_f2; c24_f3] with
  | Ok g => map (fun a => g 1%nat a 2%nat) (seq 0 10) = map (Z.mul 7) [0; 0; 0; 1100; 1200; 0; 1111; 1212; 0; 0]
  | Raise _ => False
  end.
Proof. vm_compute. auto. Qed.

(** Outside the feasible range the result is a spurious address (the code expects none). *)
Example C24_infeasible : addr_outer_product [2; 2]%nat [3; 0]%nat = [0]%nat /\
  ~ exists s, made_of (combine [2; 2]%nat [3; 0]%nat) s.
Proof.
  split; [reflexivity|]. intros (s & Hs). apply in_fprod in Hs. exact Hs.
Qed.
