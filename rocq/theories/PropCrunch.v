(** Property C65: the transition density matrices built from fragment matrices. *)
From Coq Require Import List NArith ZArith Arith Bool Lia Sorting.Permutation QArith Qcanon.
From Verif Require Import Base BaseFacts Star AddrModel AddrSpec AddrProofs SCModel SCSpec SCMach SCPrint FockSpec FockFacts FockOps LprodSpec LasElem SignsModel SignsFacts LasSigns ExcModel UexcModel PropExc PropUexc PropSC.
From Verif Require Import StdmModel StdmFacts StdmSum PropStdm CrunchModel CrunchSpec CrunchRows CrunchAll CrunchPair CrunchEnd.
Import ListNotations.
Close Scope Qc_scope. Close Scope Q_scope.
Local Open Scope nat_scope.

(** A set of product states: number of fragments, their orbitals, the CI vectors of the unique roots of every fragment with their
    electrons of each spin and their number, the unique root of every fragment in every rootspace, the number of rootspaces. *)
Record model_space (K : star_ring) := mkMS { m_nf : nat; m_norb : nat -> nat; m_vec : nat -> nat -> nat -> vec K; m_ne : nat -> nat -> nat * nat;
  m_nl : nat -> nat -> nat; m_ur : nat -> nat -> nat; m_nroots : nat }.
Arguments mkMS {K}. Arguments m_nf {K}. Arguments m_norb {K}. Arguments m_vec {K}. Arguments m_ne {K}. Arguments m_nl {K}. Arguments m_ur {K}. Arguments m_nroots {K}.

Section Wire.
  Context {K : star_ring}.
  Variable P : model_space K.
  (** what LSTDM.__init__ and init_profiling are given or make of it, stdm.py:96-200 *)
  Definition w_nelec (r : nat) : list (Z * Z) := map (fun f => (Z.of_nat (fst (m_ne P f (m_ur P f r))), Z.of_nat (snd (m_ne P f (m_ur P f r))))) (seq 0 (m_nf P)).
  Definition w_nelec_rf (r : nat) : list nat := map (fun p => Z.to_nat (fst p + snd p)) (w_nelec r).
  Definition w_lroots : list (list nat) := map (fun f => map (fun r => m_nl P f (m_ur P f r)) (seq 0 (m_nroots P))) (seq 0 (m_nf P)).
  Definition w_uroot (r f : Z) : Z := Z.of_nat (m_ur P (Z.to_nat f) (Z.to_nat r)).
  Definition w_scai : list (nat * nat) := lower true (all_pairs (m_nroots P) (m_nroots P) (fun b k => is_interaction_coupled (w_nelec b) (w_nelec k))).
  Definition w_tables : list (list erow) := interaction_tables (make_exc_tables (m_nf P) (hopping_index w_nelec) w_scai).
  Variables (half : K) (big nz : K -> bool) (pyset : list nat -> list nat) (ints : nat -> @fmats K) (ovlp : nat -> nat -> nat -> list (list K)).
  (** tdm1s and tdm2s of kernel, lines 1099-1116, when there is no umat_root *)
  Definition make_stdm : res (nat -> nat -> tix -> K) :=
    do rf <- get_rootaddr_fragaddr w_lroots ;;
    let ud := mask_exc_tables w_uroot true (fun _ => true) w_tables in
    crunch_all half big tix_tr pyset w_lroots ovlp (spinK K w_nelec) (fragK K w_nelec_rf) (fst rf) (snd rf) (crunch_D (m_norb P) ints (m_ur P) w_nelec_rf nz) (snd ud) (fst ud).

  (** the rootspaces are not empty, and the CI vectors have the electron numbers they are said to have *)
  Definition proper : Prop := 0 < m_nf P <= 8 /\ 0 < m_nroots P /\
    (forall f r, f < m_nf P -> r < m_nroots P -> 0 < m_nl P f (m_ur P f r)) /\
    (forall f a, f < m_nf P -> 0 < m_nl P f a -> fst (m_ne P f a) <= m_norb P f /\ snd (m_ne P f a) <= m_norb P f) /\
    (forall f a i, f < m_nf P -> i < m_nl P f a -> has_nelec K (m_norb P f) (m_ne P f a) (m_vec P f a i)).
  Definition gram : Prop := forall f b k, f < m_nf P -> b < m_nroots P -> k < m_nroots P ->
    shaped (ovlp f b k) (m_nl P f (m_ur P f b)) (m_nl P f (m_ur P f k)) /\
    forall i j, i < m_nl P f (m_ur P f b) -> j < m_nl P f (m_ur P f k) -> mat_at (ovlp f b k) i j = inner K (2 * m_norb P f) (m_vec P f (m_ur P f b) i) (m_vec P f (m_ur P f k) j).
  (** list (set (l)): any order without repetition, CPython's for the numbers of fragments *)
  Definition set_like : Prop := (forall l, NoDup (pyset l) /\ forall f, In f (pyset l) <-> In f l) /\ (forall l, Forall (fun f => f < 8) l -> list_set l = Ok (pyset l)).
  (** product state of rootspace r in which fragment f is in its state e[f] *)
  Definition product (r : nat) (e : list nat) : vec K := las_state K (m_nf P) (m_norb P) (fun f => m_vec P f (m_ur P f r) (nth f e 0)).

End Wire.

Section Facts.
  Context {K : star_ring}.
  Variable P : model_space K.
  Lemma w_len : length (w_lroots P) = m_nf P.
  Proof. unfold w_lroots. now rewrite map_length, seq_length. Qed.
  Lemma w_at f r : f < m_nf P -> r < m_nroots P -> nth r (nth f (w_lroots P) []) 0 = m_nl P f (m_ur P f r).
  Proof. intros Hf Hr. unfold w_lroots. rewrite (nth_map_seq0 _ (m_nf P) f) by exact Hf. now rewrite (nth_map_seq0 _ (m_nroots P) r) by exact Hr. Qed.
  Lemma w_rf r : w_nelec_rf P r = map (CrunchRows.tot (m_ne P) (m_ur P) r) (seq 0 (m_nf P)).
  Proof. unfold w_nelec_rf, w_nelec. rewrite map_map. apply map_ext. intros f. cbn [fst snd]. unfold CrunchRows.tot. lia. Qed.
  Lemma w_pairs b k : In (b, k) (w_scai P) <-> k <= b < m_nroots P /\ is_interaction_coupled (w_nelec P b) (w_nelec P k) = true.
  Proof. unfold w_scai, lower. rewrite filter_In. unfold all_pairs. rewrite filter_In, in_prod_iff, !in_seq. cbn [fst snd]. rewrite Nat.leb_le. intuition lia. Qed.
  Lemma w_nodup : NoDup (w_scai P).
  Proof. apply NoDup_filter. apply C20_each_once. Qed.
  Lemma w_admissible : admissible (m_nf P) (w_nelec P) (w_scai P).
  Proof. intros [b k] I. apply w_pairs in I as [_ C]. cbn [fst snd]. unfold w_nelec in *. rewrite !map_length, seq_length. auto. Qed.
  Lemma w_in p : In p (w_scai P) -> fst p < m_nroots P /\ snd p < m_nroots P.
  Proof. destruct p as [b k]. intros I. apply w_pairs in I as [I _]. cbn. lia. Qed.
  Hypothesis Pp : proper P.
  Lemma w_hd : length (hd [] (w_lroots P)) = m_nroots P.
  Proof. destruct Pp as ((H & _) & _). unfold w_lroots. destruct (m_nf P) as [|k]; [lia|]. cbn. now rewrite map_length, seq_length. Qed.
  Variable pyset : list nat -> list nat.
  Lemma set_perm l l' : set_like pyset -> (forall f, In f l -> f < m_nf P) -> (forall f, In f l <-> In f l') -> pyset l = pyset l'.
  Proof.
    intros [_ S] Hl E. destruct Pp as ((_ & H8) & _). assert (F : Forall (fun f => f < 8) l) by (apply Forall_forall; intros f If; apply Hl in If; lia).
    assert (F' : Forall (fun f => f < 8) l') by (apply Forall_forall; intros f If; apply E, Hl in If; lia).
    pose proof (S l F) as L. pose proof (S l' F') as L'. rewrite (list_set_ascending l 8) in L by assumption. rewrite (list_set_ascending l' 8) in L' by assumption.
    assert (Q : Ok (pyset l) = Ok (pyset l')) by (rewrite <- L, <- L'; apply (f_equal Ok); apply filter_ext; intros f; apply eq_true_iff_eq; rewrite !mem_iff; apply E). now injection Q.
  Qed.
  Lemma set_sorted fr : set_like pyset -> pyset (spectators (m_nf P) fr) = spectators (m_nf P) fr.
  Proof.
    intros [_ S]. destruct Pp as ((_ & H8) & _). assert (F : Forall (fun f => f < m_nf P) (spectators (m_nf P) fr)) by (apply Forall_forall; intros f If; unfold spectators in If; apply filter_In in If as [If _]; apply in_seq in If; lia).
    assert (F8 : Forall (fun f => f < 8) (spectators (m_nf P) fr)) by (apply Forall_forall; intros f If; rewrite Forall_forall in F; apply F in If; lia).
    pose proof (S _ F8) as L. rewrite (list_set_ascending _ (m_nf P)) in L by assumption. injection L as <-. unfold spectators at 2. apply filter_ext_in. intros f If. apply eq_true_iff_eq. rewrite mem_iff. unfold spectators. rewrite filter_In. tauto.
  Qed.
  Lemma sign_real (x : res bool) : sconj (sign_of K x) = sign_of K x.
  Proof. destruct x as [b|e]; cbn [sign_of]; [|apply sconj_0]. rewrite sg_conj. f_equal. apply conj_one. Qed.
  Lemma dims_at r : r < m_nroots P -> dims_of (w_lroots P) r = map (fun f => m_nl P f (m_ur P f r)) (seq 0 (m_nf P)).
  Proof. intros Hr. unfold dims_of, w_lroots. rewrite map_map. apply map_ext_in. intros f _. now rewrite (nth_map_seq0 _ (m_nroots P) r) by exact Hr. Qed.
  Lemma in_state r e : r < m_nroots P -> in_range (dims_of (w_lroots P) r) e -> forall f, f < m_nf P -> nth f e 0 < m_nl P f (m_ur P f r).
  Proof.
    intros Hr R f Hf. rewrite (dims_at r Hr) in R. apply in_range_nth in R as [_ R]. rewrite map_length, seq_length in R. specialize (R f Hf). rewrite (nth_map_seq0 _ (m_nf P) f) in R by exact Hf. exact R.
  Qed.
  Lemma tix_b x : tix_in (m_nf P) (m_norb P) x -> tixb (m_nf P) (m_norb P) x = true.
  Proof. destruct x as [s p q|b p q r u]; cbn [tix_in tixb]; rewrite !andb_true_iff, !orbb_iff, Nat.ltb_lt; tauto. Qed.
End Facts.

(** Every row of every table is crunched without an exception, whatever states of its rootspaces are asked for. *)
Theorem C65_no_exception : forall (K : star_ring) (P : model_space K) (nz : K -> bool) (ints : nat -> @fmats K),
  proper P -> (forall f, f < m_nf P -> exact K (m_norb P) (m_vec P) (m_ne P) (m_nl P) f (ints f)) -> nz s0 = false ->
  forall lbl t row e e', nth_error (w_tables P) lbl = Some t -> In row t ->
  (forall f, In f (e_frags row) -> nth f e 0 < m_nl P f (m_ur P f (e_bra row)) /\ nth f e' 0 < m_nl P f (m_ur P f (e_ket row))) ->
  exists d, crunch (m_norb P) ints (m_ur P) (w_nelec_rf P) nz lbl (e_frags row) (e_spin row) (e_bra row, e) (e_ket row, e') = Ok d.
Proof.
  intros K P nz ints Pp Hex Hnz lbl t row e e' Ht Hr Hs. pose proof Pp as ((_ & H8) & _ & _ & Hfit & Hne).
  destruct (row_pair (m_nf P) (m_nroots P) (w_nelec P) (w_lroots P) (w_len P) (w_scai P) (w_admissible P) (w_nodup P) (w_in P) lbl t row Ht Hr) as (_ & Hf & Hb & Hk).
  destruct (row_value_is K (m_nf P) (m_norb P) (m_vec P) (m_ne P) (m_nl P) ints (m_ur P) (w_nelec_rf P) nz H8 Hne Hex Hfit Hnz (m_nroots P) (w_nelec P) (w_lroots P) (fun r _ => eq_refl) (fun r _ => w_rf P r) (w_len P) (fun f r Hf Hr => w_at P f r Hf Hr)
    (w_scai P) (w_admissible P) (w_nodup P) (w_in P) lbl t row e e' Ht Hr) as (d & E & _); [| |now exists d].
  - intros f If. rewrite w_at by auto. now apply Hs.
  - intros f If. rewrite w_at by auto. now apply Hs.
Qed.
Print Assumptions C65_no_exception.

(** The transition density matrices are the matrix elements of the density operators between the product states, for every pair of
    states and every orbital: when the tables of the fragments hold the matrix elements of their operators and the overlap tables
    the inner products, nothing but zeros is screened off, and no two interactions have the same fingerprint. *)
Theorem C65_transition_densities : forall (K : star_ring) (P : model_space K) (half : K) (big nz : K -> bool) (pyset : list nat -> list nat) (ints : nat -> @fmats K) (ovlp : nat -> nat -> nat -> list (list K)),
  proper P -> (forall f, f < m_nf P -> exact K (m_norb P) (m_vec P) (m_ne P) (m_nl P) f (ints f)) -> gram P ovlp -> set_like pyset ->
  sadd half half = s1 -> nz s0 = false -> (forall v, big v = false -> v = s0) -> (forall v, big (sconj v) = big v) ->
  (forall t, In t (w_tables P) -> collision_free (w_uroot P) t) ->
  exists T, make_stdm P half big nz pyset ints ovlp = Ok T /\
    forall r e r' e' x, r < m_nroots P -> r' < m_nroots P -> in_range (dims_of (w_lroots P) r) e -> in_range (dims_of (w_lroots P) r') e' -> tix_in (m_nf P) (m_norb P) x ->
      T (states_before (w_lroots P) r + colmajor (dims_of (w_lroots P) r) e) (states_before (w_lroots P) r' + colmajor (dims_of (w_lroots P) r') e') x =
      inner K (2 * norb (m_nf P) (m_norb P)) (product P r e) (gops K (m_nf P) (m_norb P) (xops x) (product P r' e')).
Proof.
  intros K P half big nz pyset ints ovlp Pp Hex Hg Hset Hhalf Hnz Hbig Hbc Hcf. pose proof Pp as ((Hn0 & H8) & Hr0 & Hpos & Hfit & Hne).
  assert (Hl : w_lroots P <> []) by (intros E; pose proof (w_len P) as L; rewrite E in L; cbn in L; lia).
  assert (Hrect : Forall (fun row => length row = length (hd [] (w_lroots P))) (w_lroots P)) by (rewrite (w_hd P Pp); apply Forall_forall; intros row I; unfold w_lroots in I; apply in_map_iff in I as (f & <- & _); now rewrite map_length, seq_length).
  assert (Hp : Forall (Forall (fun d => 0 < d)) (w_lroots P)) by (apply Forall_forall; intros row I; unfold w_lroots in I; apply in_map_iff in I as (f & <- & If); apply in_seq in If; apply Forall_forall; intros d Id; apply in_map_iff in Id as (r & <- & Ir); apply in_seq in Ir; apply Hpos; lia).
  destruct (rootaddr_fragaddr_spec (w_lroots P) (length (hd [] (w_lroots P))) Hl Hrect) as (ra & fa & Eg & _). unfold make_stdm. rewrite Eg. cbn [bind fst snd].
  assert (Ek : forall t : list erow, filter (fun _ => true) t = t) by (induction t as [|a t IH]; [reflexivity|]; cbn; now rewrite IH).
  destruct (C56_assembled K tix half big tix_tr pyset (w_lroots P) ovlp (spinK K (w_nelec P)) (fragK K (w_nelec_rf P)) (crunch_D (m_norb P) ints (m_ur P) (w_nelec_rf P) nz) ra fa (w_uroot P) (w_nelec P) (w_scai P) (fun _ => true)) as (T & ET & VT); try assumption.
  - apply Hset.
  - intros fr. rewrite w_len. apply (set_sorted P Pp pyset fr Hset).
  - intros f b k Hf Hb Hk. rewrite w_len in Hf. rewrite (w_hd P Pp) in Hb, Hk. rewrite !w_at by assumption. split; [now apply Hg|]. intros i j Hi Hj. rewrite (proj2 (Hg f b k Hf Hb Hk) i j Hi Hj), (proj2 (Hg f k b Hf Hk Hb) j i Hj Hi). symmetry. apply inner_swap.
  - intros r. apply sign_real.
  - intros r l. apply sign_real.
  - intros r l l' Hll Pm. rewrite w_len in Hll. f_equal. apply (set_perm P Pp pyset l l' Hset Hll). intros f. split; apply Permutation_in; [exact Pm|now symmetry].
  - intros r r' f Hr Hr' Hf E. rewrite (w_hd P Pp) in Hr, Hr'. rewrite w_len in Hf. rewrite !w_at by assumption. unfold w_uroot in E. rewrite !Nat2Z.id in E. apply Nat2Z.inj in E. now rewrite E.
  - rewrite w_len. exact (crunch_hermitian K (m_nf P) (m_norb P) (m_vec P) (m_ne P) (m_nl P) ints (m_ur P) (w_nelec_rf P) nz H8 Hne Hex Hfit Hnz (m_nroots P) (w_nelec P) (w_lroots P) (fun r _ => eq_refl) (fun r _ => w_rf P r) (w_len P) (fun f r Hf Hr => w_at P f r Hf Hr)
      (w_scai P) (w_admissible P) (w_nodup P) (w_in P) (w_uroot P) ltac:(intros r f _ _; unfold w_uroot; now rewrite !Nat2Z.id)).
  - rewrite w_len. apply w_admissible.
  - apply w_nodup.
  - rewrite (w_hd P Pp). apply w_in.
  - intros t It. rewrite Ek. rewrite w_len in It. now apply Hcf.
  - rewrite w_len in ET. exists T. split; [exact ET|]. intros r e r' e' x Hr Hr' R R' Tx. rewrite (w_hd P Pp) in VT. rewrite VT by assumption.
    rewrite (map_ext _ (fun t => t) Ek), map_id, w_len.
    exact (reference_is K (m_nf P) (m_norb P) (m_vec P) (m_ne P) (m_nl P) ints (m_ur P) (w_nelec_rf P) nz H8 Hne Hex Hfit Hnz (m_nroots P) (w_nelec P) (w_lroots P) (fun r _ => eq_refl) (fun r _ => w_rf P r) (w_len P) (fun f r Hf Hr => w_at P f r Hf Hr)
      (w_scai P) (w_admissible P) (w_nodup P) (w_in P) big pyset ovlp Hbig (proj1 Hset) (fun f b k i j Hf Hb Hk Hi Hj => proj2 (Hg f b k Hf Hb Hk) i j Hi Hj) ltac:(intros [b k] I; apply w_pairs in I as [I _]; cbn; lia) ltac:(intros b k I C; now apply w_pairs)
      r e r' e' x (tix_b P x Tx) Hr Hr' (in_state P r e Hr R) (in_state P r' e' Hr' R')).
Qed.
Print Assumptions C65_transition_densities.

(** Tables with these values exist for all states. *)
Definition table_of {K : star_ring} (P : model_space K) (f : nat) : @fmats K :=
  let E a b ops := el K (m_norb P) (m_vec P) f a b ops in
  mkFmats (fun s a b => Some (fun i => E a b [an s (f, nth 0 i 0)]))
    (fun c a b => Some (fun i => E a b [an (c - c / 2) (f, nth 0 i 0); an (c / 2) (f, nth 1 i 0)]))
    (fun s a b => Some (fun i => E a b [cr (nth 0 i 0) (f, nth 2 i 0); an (nth 0 i 0) (f, nth 3 i 0); an s (f, nth 1 i 0)]))
    (fun a b => Some (fun i => E a b [cr 1 (f, nth 0 i 0); an 0 (f, nth 1 i 0)]))
    (fun a b => Some (fun i => E a b (xops (X1 (nth 0 i 0) (f, nth 1 i 0) (f, nth 2 i 0)))))
    (fun a b => Some (fun i => E a b (xops (X2 (nth 0 i 0) (f, nth 1 i 0) (f, nth 2 i 0) (f, nth 3 i 0) (f, nth 4 i 0))))).
Lemma table_exact {K : star_ring} (P : model_space K) f : exact K (m_norb P) (m_vec P) (m_ne P) (m_nl P) f (table_of P f).
Proof. split; intros; eexists; (split; [reflexivity|]); intros; reflexivity. Qed.

(** Three fragments with 2, 1 and 1 orbitals in five rootspaces: electron hops, spin exchange, a spin flip with a hop, a pair. *)
Definition y_ne (f a : nat) : nat * nat := nth a [(1, 0); (0, 1); (1, 1); (0, 0)] (0, 0).
Definition y_norb (f : nat) : nat := nth f [2; 1; 1] 0.
Definition y_ur (f r : nat) : nat := nth f (nth r [[0; 1; 0]; [3; 2; 0]; [1; 0; 0]; [3; 0; 2]; [2; 3; 0]] []) 0.
Definition y_nl (f a : nat) : nat := if (f =? 0) && (a =? 0) then 2 else 1.
Definition y_vec (f a i : nat) : vec Qs := fun d =>
  if (count (bt d) (seq (y_norb f) (y_norb f)) =? fst (y_ne f a)) && (count (bt d) (seq 0 (y_norb f)) =? snd (y_ne f a))
  then zq (1 + Z.of_nat ((3 * i + N.to_nat d + f) mod 5)) else zq 0.
Definition y_P : model_space Qs := mkMS 3 y_norb y_vec y_ne y_nl y_ur 5.
Definition y_ovlp (f b k : nat) : list (list Qs) :=
  map (fun i => map (fun j => inner Qs (2 * y_norb f) (y_vec f (y_ur f b) i) (y_vec f (y_ur f k) j)) (seq 0 (y_nl f (y_ur f k)))) (seq 0 (y_nl f (y_ur f b))).
Definition y_states : list (nat * list nat) := [(0, [0; 0; 0]); (0, [1; 0; 0]); (1, [0; 0; 0]); (2, [0; 0; 0]); (3, [0; 0; 0]); (4, [0; 0; 0])].
Lemma y_proper : proper y_P.
Proof.
  split; [cbn; lia|]. split; [cbn; lia|]. split; [intros f r _ _; cbn; unfold y_nl; destruct (_ && _); lia|].
  split.
  - intros f a Hf _. cbn in *. unfold y_ne, y_norb. destruct f as [|[|[|f]]]; [| | |lia]; destruct a as [|[|[|[|a]]]]; cbn; try lia; destruct a; cbn; lia.
  - intros f a i _ _ d _. cbn [y_P m_vec m_norb m_ne]. unfold y_vec. destruct (_ && _) eqn:E; [right|left; reflexivity].
    apply andb_true_iff in E as [E1 E2]. apply Nat.eqb_eq in E1, E2. now split.
Qed.
Definition y_samples : list ((nat * nat) * tix * Z) := [
  ((0, 0), X1 0 (0, 0) (0, 1), (4500)%Z); ((0, 2), X1 0 (0, 1) (1, 0), (1500)%Z); ((0, 3), X1 0 (0, 1) (1, 0), (0)%Z);
  ((0, 0), X2 0 (0, 0) (2, 0) (2, 0) (0, 1), (-4500)%Z); ((0, 2), X2 1 (0, 1) (1, 0) (1, 0) (1, 0), (1500)%Z);
  ((2, 0), X2 0 (1, 0) (2, 0) (2, 0) (0, 1), (-1500)%Z); ((1, 3), X2 2 (1, 0) (0, 1) (0, 0) (1, 0), (2700)%Z);
  ((3, 4), X2 2 (0, 1) (2, 0) (2, 0) (2, 0), (240)%Z); ((2, 5), X2 1 (1, 0) (0, 1) (1, 0) (0, 0), (1250)%Z);
  ((0, 4), X2 1 (0, 0) (1, 0) (1, 0) (2, 0), (300)%Z); ((2, 3), X2 2 (1, 0) (0, 1) (2, 0) (2, 0), (1500)%Z);
  ((1, 5), X2 1 (0, 0) (0, 1) (1, 0) (0, 0), (2250)%Z); ((4, 5), X2 2 (2, 0) (0, 0) (1, 0) (0, 1), (200)%Z); ((0, 5), X2 0 (0, 0) (1, 0) (1, 0) (2, 0), (0)%Z)].
Example C65_example :
  map (fun t => length t) (w_tables y_P) = [15; 15; 6; 6; 1; 1; 2] /\
  match make_stdm y_P hq x_big x_big x_set (table_of y_P) y_ovlp with Raise _ => False | Ok T =>
    forallb (fun c => let '((i, j), x, v) := c in let a := nth i y_states (0, []) in let b := nth j y_states (0, []) in
      (states_before (w_lroots y_P) (fst a) + colmajor (dims_of (w_lroots y_P) (fst a)) (snd a) =? i) && Qeq_bool (this (T i j x)) (v # 1) &&
      Qeq_bool (this (inner Qs 8 (product y_P (fst a) (snd a)) (gops Qs 3 y_norb (xops x) (product y_P (fst b) (snd b))))) (v # 1)) y_samples = true end.
Proof. vm_compute. split; reflexivity. Qed.
