(** C75 continued: the densities made from tables that spin manifolds share. *)
From Coq Require Import List Bool Arith NArith ZArith Reals Lia Sorting.Permutation.
From Verif Require Import Base BaseFacts Star FockSpec FockFacts FockOps LprodSpec LasFock DetModel DetFacts HalfSpec AddrModel AddrSpec AddrProofs SCModel SCSpec SCMach SCPrint SCBlocks ExcModel UexcModel StdmModel StdmFacts StdmSum CrunchModel CrunchSpec PropUexc PropCrunch HalfModel HalfFacts HalfFun HalfDms HalfInner PropHalf PropStdm PropScatter RdmModel RdmEnd PropRdm.
From Verif Require Import LsisUpdModel SmultSpec SmultModel LadderSpec LadderModel SpmanBridge SpmanModel SpmanSpec SpmanEntry SpmanMain PropSpman.
Import ListNotations.
Local Open Scope nat_scope.

(** A set of product states with the spin multiplicities of the unique roots of the fragments and the discriminators that are given *)
Record spin_set := mkSpin { s_set : ci_set Rs; s_smult : nat -> nat -> Z; s_disc : nat -> nat -> Z }.
Section Tables.
  Variables (D : spin_set) (small : R -> bool) (tol : R).
  Notation C := (s_set D).
  (** what the accessors return for local states: frag.py:206-211, 216-262, 382-420.  nan is any number *)
  Definition number_of (x : num) : R := match x with Some v => v | None => 0%R end.
  Definition spin_get (f : nat) (t : HalfModel.tag) (a b : lst) : option (@CrunchModel.arr Rs) :=
    match get (c_norb C f) (c_nu C f) (c_uaddr C f) (c_ne C f) (c_nl C f) (c_ci C f) (s_smult D f) (s_disc D f) small tol t (fst a) (fst b) with
    | Ok T => Some (fun ix => number_of (T (snd a) (snd b) ix))
    | Raise _ => None
    end.
  Definition spin_tables (f : nat) : @fmats Rs :=
    mkFmats (fun s => spin_get f (HalfModel.Th s)) (fun s => spin_get f (HalfModel.Thh s)) (fun s => spin_get f (Tphh s)) (spin_get f HalfModel.Tsm) (spin_get f Tdm1) (spin_get f Tdm2).
  (** get_ovlp, asked only for equal electron numbers *)
  Definition spin_ovlp (f b k : nat) : list (list R) :=
    let u := c_ur C f b in let v := c_ur C f k in
    map (fun i => map (fun j => if (fst (c_ne C f u) =? fst (c_ne C f v)) && (snd (c_ne C f u) =? snd (c_ne C f v))
      then match get_ovlp (c_norb C f) (c_nu C f) (c_ne C f) (c_nl C f) (c_ci C f) (s_smult D f) (s_disc D f) tol u v with Ok T => T i j | Raise _ => 0%R end
      else 0%R) (seq 0 (c_nl C f v))) (seq 0 (c_nl C f u)).
  (** the CI vectors of every fragment belong to spin multiplets of the multiplicities given, and these are told apart *)
  Definition spins_ok : Prop := forall f, f < c_nf C -> exists psi,
    spin_states (c_norb C f) (c_nu C f) (c_ne C f) (c_nl C f) (c_ci C f) (s_smult D f) psi /\ told_apart (c_norb C f) (c_nu C f) (c_ne C f) (c_nl C f) (s_smult D f) psi tol.
End Tables.

Section Facts.
  Variables (D : spin_set) (small : R -> bool) (tol : R).
  Notation C := (s_set D).
  Hypothesis Hs : small 0%R = true.
  Hypothesis Hok : forall f, f < c_nf C -> roots_ok C f.
  Hypothesis Hspin : spins_ok D tol.
  Lemma spin_get_ok f t a b ix : f < c_nf C -> st_in (c_nl C) f a -> st_in (c_nl C) f b -> connects (c_ne C f) t (fst a) (fst b) -> index (c_norb C f) t ix ->
    exists T, spin_get D small tol f t a b = Some T /\ forall i, index (c_norb C f) t i -> T i = CrunchSpec.el Rs (c_norb C) (m_vec (space C)) f a b (map (at_f f) (ops_of t i)).
  Proof.
    intros Hf Ha Hb Hc Hx. destruct (Hspin f Hf) as (psi & HS & HT). destruct (Hok f Hf) as (Hu & Hp & _).
    assert (Ia : fst a < c_nu C f) by (apply Hp; unfold st_in in Ha; lia). assert (Ib : fst b < c_nu C f) by (apply Hp; unfold st_in in Hb; lia).
    assert (G := fun i Hi => C75_tables _ _ (c_uaddr C f) _ _ _ _ (s_disc D f) small tol psi Hs Hu HS HT t (fst a) (fst b) (snd a) (snd b) i Ia Ib Hc Ha Hb Hi).
    destruct (G ix Hx) as (T & E & _). unfold spin_get. rewrite E. eexists. split; [reflexivity|]. intros i Hi. destruct (G i Hi) as (T' & E' & V). rewrite E in E'. injection E' as <-. rewrite V. cbn [number_of].
    unfold elements_between. rewrite el_at by (pose proof (ops_ok0 (c_norb C f) t i Hi) as O; eapply Forall_impl; [|exact O]; intros [k [[g dn] l]] [X _]; exact X).
    rewrite <- sops_opn by exact Hi. symmetry. exact (bridge (c_norb C f) (c_ne C f (fst a)) (c_ne C f (fst b)) (c_ci C f (fst a) (snd a)) (c_ci C f (fst b) (snd b)) (ops_of t i) (ops_ok _ t i Hi)).
  Qed.
  Lemma spin_exact f : f < c_nf C -> 0 < c_norb C f -> exact Rs (c_norb C) (m_vec (space C)) (c_ne C) (c_nl C) f (spin_tables D small tol f).
  Proof.
    intros Hf Hn. split; cbn [spin_tables m_h m_hh m_phh m_sm m_dm1 m_dm2].
    - intros s a b S2 Ha Hb [F1 F2]. destruct (spin_get_ok f (HalfModel.Th s) a b [0] Hf Ha Hb) as (T & E & V).
      { destruct s as [|[|]]; [| |lia]; split; cbn; lia. } { cbn; lia. }
      exists T. split; [exact E|]. intros p Hp. apply (V [p]). cbn. lia.
    - intros c a b S3 Ha Hb [F1 F2]. destruct (spin_get_ok f (HalfModel.Thh c) a b [0; 0] Hf Ha Hb) as (T & E & V).
      { destruct c as [|[|[|]]]; [| | |lia]; split; cbn; lia. } { cbn; lia. }
      exists T. split; [exact E|]. intros p q Hp Hq. rewrite (V [p; q]) by (cbn; lia). destruct c as [|[|[|]]]; [reflexivity|reflexivity|reflexivity|lia].
    - intros s a b S2 Ha Hb [F1 F2]. destruct (spin_get_ok f (Tphh s) a b [0; 0; 0; 0] Hf Ha Hb) as (T & E & V).
      { destruct s as [|[|]]; [| |lia]; split; cbn; lia. } { cbn; lia. }
      exists T. split; [exact E|]. intros t h p q Ht Hh Hp Hq. apply (V [t; h; p; q]). cbn. lia.
    - intros a b Ha Hb F1 F2. destruct (spin_get_ok f HalfModel.Tsm a b [0; 0] Hf Ha Hb) as (T & E & V).
      { split; cbn; lia. } { cbn; lia. }
      exists T. split; [exact E|]. intros p q Hp Hq. apply (V [p; q]). cbn. lia.
    - intros a b Ha Hb _ F. destruct (spin_get_ok f Tdm1 a b [0; 0; 0] Hf Ha Hb) as (T & E & V).
      { split; cbn; rewrite F; lia. } { cbn; lia. }
      exists T. split; [exact E|]. intros s p q S2 Hp Hq. apply (V [s; p; q]). cbn. lia.
    - intros a b Ha Hb _ F. destruct (spin_get_ok f Tdm2 a b [0; 0; 0; 0; 0] Hf Ha Hb) as (T & E & V).
      { split; cbn; rewrite F; lia. } { cbn; lia. }
      exists T. split; [exact E|]. intros c p q r u Hc Hp Hq Hr Hu. apply (V [c; p; q; r; u]). cbn. lia.
  Qed.
  Lemma spin_gram : (forall f r, f < c_nf C -> r < c_nroots C -> c_ur C f r < c_nu C f) -> gram (space C) (spin_ovlp D tol).
  Proof.
    intros Hur f b k Hf Hb Hk. cbn [space m_nf m_nroots m_nl m_ur m_norb m_vec] in *. unfold spin_ovlp. cbv zeta. pose proof (Hur f b Hf Hb) as Hu. pose proof (Hur f k Hf Hk) as Hv. set (u := c_ur C f b) in *. set (v := c_ur C f k) in *.
    split; [split; [rewrite map_length, seq_length; reflexivity|intros row I; apply in_map_iff in I as (i & <- & _); rewrite map_length, seq_length; reflexivity]|].
    intros i j Hi Hj. unfold mat_at. rewrite (nth_map_seq0 _ (c_nl C f u) i) by exact Hi. rewrite (nth_map_seq0 _ (c_nl C f v) j) by exact Hj.
    destruct (Nat.eqb_spec (fst (c_ne C f u)) (fst (c_ne C f v))) as [E1|E1]; cbn [andb]; [destruct (Nat.eqb_spec (snd (c_ne C f u)) (snd (c_ne C f v))) as [E2'|E2']|].
    - destruct (Hspin f Hf) as (psi & HS & HT). assert (En : c_ne C f u = c_ne C f v) by (destruct (c_ne C f u), (c_ne C f v); cbn in *; congruence).
      destruct (C75_overlap _ _ _ _ _ _ (s_disc D f) tol psi HS HT u v i j Hu Hv En Hi Hj) as (T & E & V). rewrite E, V.
      symmetry. exact (bridge (c_norb C f) (c_ne C f u) (c_ne C f v) (c_ci C f u i) (c_ci C f v j) [] (Forall_nil _)).
    - symmetry. apply (@inner_other Rs). intros E. apply E2'. rewrite E. reflexivity.
    - symmetry. apply (@inner_other Rs). intros E. apply E1. rewrite E. reflexivity.
  Qed.
  Lemma spin_proper : ci_ok C -> proper (space C).
  Proof.
    intros (H8 & Hn & _ & Hur). split; [exact H8|]. split; [exact Hn|]. cbn [space m_nf m_nl m_ne m_norb m_vec m_ur m_nroots]. split; [|split].
    - intros f r Hf Hr'. apply (Hok f Hf). apply Hur; assumption.
    - intros f a Hf Ha. apply (Hok f Hf). apply (Hok f Hf). exact Ha.
    - intros f a i Hf Hi. apply civec_nelec.
  Qed.
End Facts.

(** The transition densities of all pairs of product states *)
Theorem C75_stdm12s : forall (D : spin_set) (tol : R) (small big nz : R -> bool) (pyset : list nat -> list nat) (sched : nat -> list nat) (nthreads : nat),
  let C := s_set D in ci_ok C -> (forall f, f < c_nf C -> 0 < c_norb C f) -> spins_ok D tol -> small 0%R = true -> set_like pyset -> nz 0%R = false -> (forall v, big v = false -> v = 0%R) ->
  (forall t, In t (w_tables (space C)) -> collision_free (w_uroot (space C)) t) ->
  0 < nthreads -> (forall n, Permutation (sched n) (seq 0 n)) -> let N := norb (c_nf C) (c_norb C) in (4 * Z.of_nat N ^ 4 < 2 ^ 31)%Z ->
  exists o1 o2, stdm12s (K := Rs) sched nthreads (space C) (/ 2)%R big nz pyset (spin_tables D small tol) (spin_ovlp D tol) = Ok (o1, o2) /\
    forall r e r' e', r < c_nroots C -> r' < c_nroots C -> in_range (dims_of (w_lroots (space C)) r) e -> in_range (dims_of (w_lroots (space C)) r') e' ->
      let bra := product (space C) r e in let ket := product (space C) r' e' in
      (forall s p q, s < 2 -> p < N -> q < N -> o1 (number (space C) r e) s p q (number (space C) r' e') = dens1 N bra ket s p q) /\
      (forall s p q t v u, s < 2 -> t < 2 -> p < N -> q < N -> v < N -> u < N -> o2 (number (space C) r e) s p q t v u (number (space C) r' e') = dens2 N bra ket s p q t v u).
Proof.
  intros D tol small big nz pyset sched nthreads C Hok Hn Hspin Hs Hset Hnz Hb Hcf Hth Hsch N Hint. pose proof Hok as (H8 & _ & Hroots & Hur).
  refine (C66_stdm12s Rs (space C) (/ 2)%R big nz pyset (spin_tables D small tol) (spin_ovlp D tol) sched nthreads (spin_proper D Hroots Hok) _ (spin_gram D tol Hspin Hur) Hset _ Hnz Hb (fun v => eq_refl) Hcf Hth Hsch _ Hint).
  - intros f Hf. apply (spin_exact D small tol Hs Hroots Hspin f Hf (Hn f Hf)).
  - change (@eq R (/ 2 + / 2) 1)%R. field.
  - destruct (c_nf C) as [|m] eqn:Em; [lia|]. cbn [space m_nf m_norb]. rewrite Em. specialize (Hn 0 ltac:(lia)). unfold norb, offn. cbn [seq map list_sum fold_right]. lia.
Qed.
(** The density matrices of combinations of product states *)
Theorem C75_rdm : forall (D : spin_set) (tol : R) (small big nz : R -> bool) (pyset : list nat -> list nat) (si_bra si_ket : list (list R)) (hermi : bool) (l : list (nat * list nat)),
  let C := s_set D in ci_ok C -> (forall f, f < c_nf C -> 0 < c_norb C f) -> spins_ok D tol -> small 0%R = true -> set_like pyset -> nz 0%R = false -> (forall v, big v = false -> v = 0%R) ->
  (forall t, In t (w_tables (space C)) -> collision_free (w_uroot (space C)) t) ->
  @columns Rs (space C) si_bra -> @columns Rs (space C) si_ket -> length si_ket = length si_bra -> si_bra <> [] -> (hermi = true -> si_bra = si_ket) -> all_states (space C) l ->
  exists X, make_rdm (K := Rs) (space C) (/ 2)%R big pyset (spin_tables D small tol) (spin_ovlp D tol) si_bra si_ket hermi = Ok X /\
    forall root, root < length si_bra ->
      let bra := @combine_states Rs (space C) l (nth root si_bra []) in
      let ket := @combine_states Rs (space C) l (nth root si_ket []) in
      forall x, tix_in (c_nf C) (c_norb C) x -> X root x = inner Rs (2 * norb (c_nf C) (c_norb C)) bra (gops Rs (c_nf C) (c_norb C) (xops x) ket).
Proof.
  intros D tol small big nz pyset sb sk hermi l C Hok Hn Hspin Hs Hset Hnz Hb Hcf Cb Ck Hl Hne Hh Al. pose proof Hok as (H8 & _ & Hroots & Hur).
  refine (C70_density_matrices Rs (space C) (/ 2)%R big nz pyset (spin_tables D small tol) (spin_ovlp D tol) sb sk hermi l (spin_proper D Hroots Hok) _ (spin_gram D tol Hspin Hur) Hset _ Hnz Hb (fun v => eq_refl) Hcf Cb Ck Hl Hne Hh Al).
  - intros f Hf. apply (spin_exact D small tol Hs Hroots Hspin f Hf (Hn f Hf)).
  - change (@eq R (/ 2 + / 2) 1)%R. field.
Qed.
Print Assumptions C75_stdm12s.
Print Assumptions C75_rdm.
