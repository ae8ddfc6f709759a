(** Properties of the tables of interactions. *)
From Coq Require Import List ZArith Bool Arith Lia Permutation.
From Verif Require Import Base BaseFacts SCModel SCSpec PropSC ExcModel ExcSpec ExcFacts ExcClass.
Import ListNotations.
Local Open Scope Z_scope.

Lemma filter_none {X} (c : X -> bool) l : (forall p, In p l -> c p = false) -> filter c l = [].
Proof. intros H. induction l as [|x l IH]; [reflexivity|]. cbn. rewrite H by now left. apply IH. intros p Hp. apply H. now right. Qed.

(** electrons of spin s in fragment f of rootspace r *)
Definition elec (nelec : nat -> list (Z * Z)) (r f s : nat) : Z := let p := nth f (nelec r) (0, 0) in if (s =? 0)%nat then fst p else snd p.
(** the operators take the electron numbers of the ket to those of the bra *)
Definition connects (n : nat) (nelec : nat -> list (Z * Z)) (bra ket : nat) (ops : list fop * list fop) : Prop :=
  forall f s, (f < n)%nat -> (s < 2)%nat -> elec nelec bra f s = elec nelec ket f s + moves (fst ops) (snd ops) f s.
Definition pair_of (r : erow) : nat * nat := (e_bra r, e_ket r).

Section S.
  Variables (nfrags : nat) (nelec : nat -> list (Z * Z)) (scai : list (nat * nat)).
  Hypothesis Hlen : forall p, In p scai -> length (nelec (fst p)) = nfrags /\ length (nelec (snd p)) = nfrags.
  Hypothesis Hcoup : forall p, In p scai -> is_interaction_coupled (nelec (fst p)) (nelec (snd p)) = true.
  Let H := hopping_index nelec.
  Let T := make_exc_tables nfrags H scai.
  Lemma hop_len p : In p scai -> length (H (fst p) (snd p)) = nfrags.
  Proof. intros Hp. unfold H, hopping_index. rewrite map_length, combine_length. destruct (Hlen p Hp). lia. Qed.
  Lemma sums_gen l : forall a b d, fold_left sc_acc l (a, b, d) =
    let h := map (fun p : (Z*Z)*(Z*Z) => (fst (fst p) - fst (snd p), snd (fst p) - snd (snd p))) l in
    (a + sumZ (map fst h), b + sumZ (map snd h), d + nop h).
  Proof.
    induction l as [|[[ba bb] [ka kb]] l IH]; intros a b d; [cbn; unfold nop, sum_abs; cbn; apply f_equal2; [apply f_equal2|]; lia|].
    cbn [fold_left]. unfold sc_acc at 2. rewrite IH. unfold nop, sum_abs. cbn [map fst snd sumZ]. apply f_equal2; [apply f_equal2|]; lia.
  Qed.
  Lemma hop_ok p : In p scai -> hopok (H (fst p) (snd p)).
  Proof.
    intros Hp. pose proof (Hcoup p Hp) as C. unfold is_interaction_coupled, sc_sums in C. rewrite sums_gen in C. cbn [fst snd] in C.
    apply andb_true_iff in C as [C C3]. apply andb_true_iff in C as [C1 C2]. apply Z.eqb_eq in C1, C2. apply Z.leb_le in C3.
    unfold hopok, H, hopping_index. repeat split; lia.
  Qed.
  Lemma hop_class p : In p scai -> hop_good (H (fst p) (snd p)) /\ one_cond (H (fst p) (snd p)).
  Proof. intros Hp. now apply classify, hop_ok. Qed.
  Lemma connect p ops : In p scai -> changes (H (fst p) (snd p)) ops -> connects nfrags nelec (fst p) (snd p) ops.
  Proof.
    intros Hp C f s Hf Hs. specialize (C f). rewrite (hop_len p Hp) in C. specialize (C Hf). unfold hop_at, H, hopping_index in C.
    destruct (Hlen p Hp) as [L1 L2].
    set (g := fun p : (Z*Z)*(Z*Z) => (fst (fst p) - fst (snd p), snd (fst p) - snd (snd p))) in C. change (0, 0) with (g ((0, 0), (0, 0))) in C.
    rewrite map_nth, combine_nth in C by lia. unfold g in C. cbn [fst snd] in C. injection C as C1 C2. unfold elec.
    destruct s as [|[|s]]; [cbn; lia | cbn; lia | lia].
  Qed.
  Lemma guard_select (b : bool) c fr sp : (forall p, In p scai -> c (H (fst p) (snd p)) = true -> b = true) ->
    (if b then select H c fr sp scai else []) = select H c fr sp scai.
  Proof.
    intros G. destruct b; [reflexivity|]. unfold select. rewrite filter_none; [reflexivity|]. intros p Hp. destruct (c _) eqn:E; [|reflexivity].
    now specialize (G p Hp E).
  Qed.
  Lemma in_select c fr sp r : In r (select H c fr sp scai) -> In (pair_of r) scai /\ c (H (e_bra r) (e_ket r)) = true
    /\ e_frags r = fr (H (e_bra r) (e_ket r)) /\ e_spin r = sp (H (e_bra r) (e_ket r)).
  Proof.
    unfold select. intros Hr. apply in_map_iff in Hr as ([b k] & <- & Hp). apply filter_In in Hp as [Hp C]. cbn in *. repeat split; assumption.
  Qed.
  Lemma select_pairs c fr sp : map pair_of (select H c fr sp scai) = filter (fun p => c (H (fst p) (snd p))) scai.
  Proof. unfold select. rewrite map_map. rewrite <- (map_id (filter _ _)) at 2. apply map_ext. now intros [b k]. Qed.

  Ltac grd := let p := fresh in let Hp := fresh in let C := fresh in intros p Hp C; apply Nat.ltb_lt; rewrite <- (hop_len p Hp);
    destruct (hop_class p Hp) as ((G0 & G1 & G2 & G3 & G4 & G5 & G6 & G7 & G8) & _); first [apply G1, C | apply G2, C | apply G3, C | apply G4, C | apply G5, C | apply G6, C | apply G7, C | apply G8, C].
  Lemma t_1c_eq : t_1c T = select H c_1c (fun h => [lst_at h 0; fst_at h 0]) sp scai.
  Proof. apply (guard_select (1 <? nfrags)%nat c_1c). grd. Qed.
  Lemma t_1s_eq : t_1s T = select H c_1s (fun h => [lst_at h 0; fst_at h 0]) no_spin scai.
  Proof. apply (guard_select (1 <? nfrags)%nat c_1s). grd. Qed.
  Lemma t_1s1c_eq : t_1s1c T = select H c_1s1c (fun h => [lst_at h 0; fst_at h 1; fst_at h 0]) (fun _ => Some 0%nat) scai
    ++ select H c_1s1cT (fun h => [lst_at h 1; fst_at h 0; lst_at h 0]) (fun _ => Some 1%nat) scai.
  Proof.
    rewrite <- (guard_select (2 <? nfrags)%nat c_1s1c) by grd. rewrite <- (guard_select (2 <? nfrags)%nat c_1s1cT) by grd.
    cbn [t_1s1c T make_exc_tables]. unfold exc_1s1c. fold H. destruct (2 <? nfrags)%nat; reflexivity.
  Qed.
  Lemma t_2c_eq : t_2c T = select H c_pair (fun h => [lst_at h 0; fst_at h 0; lst_at h 0; fst_at h 0]) sp scai
    ++ (select H c_split (fun h => [lst_at h 0; fst_at h 0; lst_at h 1; fst_at h 0]) sp scai
    ++ select H c_coal (fun h => [lst_at h 0; fst_at h 0; lst_at h 0; fst_at h 1]) sp scai)
    ++ select H c_scat (fun h => [lst_at h 0; fst_at h 0; lst_at h 1; fst_at h 1]) sp scai.
  Proof.
    rewrite <- (guard_select (1 <? nfrags)%nat c_pair) by grd. rewrite <- (guard_select (2 <? nfrags)%nat c_split) by grd.
    rewrite <- (guard_select (2 <? nfrags)%nat c_coal) by grd. rewrite <- (guard_select (3 <? nfrags)%nat c_scat) by grd.
    cbn [t_2c T make_exc_tables]. unfold exc_2c, exc_pair, exc_split, exc_scatter. fold H. destruct (2 <? nfrags)%nat; reflexivity.
  Qed.

  Lemma rows_1c r : In r (t_1c T) -> In (pair_of r) scai /\ exists i j s, e_frags r = [i; j] /\ e_spin r = Some s /\
    (i < nfrags)%nat /\ (j < nfrags)%nat /\ i <> j /\ (s < 2)%nat /\ connects nfrags nelec (e_bra r) (e_ket r) (ops_1c i j s).
  Proof.
    rewrite t_1c_eq. intros Hr. apply in_select in Hr as (Hp & C & F & S). split; [exact Hp|]. unfold sp in S. do 3 eexists. split; [exact F|]. split; [exact S|].
    destruct (hop_class _ Hp) as ((_ & G & _) & _). specialize (G C) as (_ & G1 & G2 & G3 & G4 & G5). pose proof (hop_len _ Hp) as L. cbn [fst snd pair_of] in *.
    rewrite L in *. repeat split; try assumption. exact (connect _ _ Hp G5).
  Qed.
  Lemma rows_1s r : In r (t_1s T) -> In (pair_of r) scai /\ exists i j, e_frags r = [i; j] /\
    (i < nfrags)%nat /\ (j < nfrags)%nat /\ i <> j /\ connects nfrags nelec (e_bra r) (e_ket r) (ops_1s i j).
  Proof.
    rewrite t_1s_eq. intros Hr. apply in_select in Hr as (Hp & C & F & S). split; [exact Hp|]. do 2 eexists. split; [exact F|].
    destruct (hop_class _ Hp) as ((_ & _ & G & _) & _). specialize (G C) as (_ & G1 & G2 & G3 & G5). pose proof (hop_len _ Hp) as L. cbn [fst snd pair_of] in *.
    rewrite L in *. repeat split; try assumption. exact (connect _ _ Hp G5).
  Qed.
  Lemma rows_1s1c r : In r (t_1s1c T) -> In (pair_of r) scai /\ exists i j k s, e_frags r = [i; j; k] /\ e_spin r = Some s /\
    (i < nfrags)%nat /\ (j < nfrags)%nat /\ (k < nfrags)%nat /\ NoDup [i; j; k] /\ (s < 2)%nat /\ connects nfrags nelec (e_bra r) (e_ket r) (ops_1s1c i j k s).
  Proof.
    rewrite t_1s1c_eq. intros Hr. apply in_app_or in Hr as [Hr|Hr]; apply in_select in Hr as (Hp & C & F & S); (split; [exact Hp|]); do 4 eexists; (split; [exact F|]); (split; [exact S|]);
      destruct (hop_class _ Hp) as ((_ & _ & _ & G & G' & _) & _); pose proof (hop_len _ Hp) as L; cbn [fst snd pair_of] in *; rewrite L in *.
    - specialize (G C) as (_ & G1 & G2 & G3 & G4 & G5 & G6). rewrite L in *. refine (conj G1 (conj G2 (conj G3 (conj G4 (conj G5 _))))). exact (connect _ _ Hp G6).
    - specialize (G' C) as (_ & G1 & G2 & G3 & G4 & G5 & G6). rewrite L in *. refine (conj G1 (conj G2 (conj G3 (conj G4 (conj G5 _))))). exact (connect _ _ Hp G6).
  Qed.
  Lemma rows_2c r : In r (t_2c T) -> In (pair_of r) scai /\ exists i j k l s, e_frags r = [i; j; k; l] /\ e_spin r = Some s /\
    (i < nfrags)%nat /\ (j < nfrags)%nat /\ (k < nfrags)%nat /\ (l < nfrags)%nat /\ i <> j /\ i <> l /\ k <> j /\ k <> l /\ (s < 3)%nat
    /\ connects nfrags nelec (e_bra r) (e_ket r) (ops_2c i j k l s).
  Proof.
    rewrite t_2c_eq. intros Hr. rewrite !in_app_iff in Hr. destruct Hr as [Hr|[[Hr|Hr]|Hr]]; apply in_select in Hr as (Hp & C & F & S); (split; [exact Hp|]); do 5 eexists; (split; [exact F|]); (split; [exact S|]);
      destruct (hop_class _ Hp) as ((_ & _ & _ & _ & _ & G & G' & G'' & G''') & _); pose proof (hop_len _ Hp) as L; cbn [fst snd pair_of] in *; rewrite L in *.
    1: specialize (G C) as (_ & G1 & G2 & G3 & G4 & G5 & G6 & G7 & G8 & G9 & G10).
    2: specialize (G' C) as (_ & G1 & G2 & G3 & G4 & G5 & G6 & G7 & G8 & G9 & G10).
    3: specialize (G'' C) as (_ & G1 & G2 & G3 & G4 & G5 & G6 & G7 & G8 & G9 & G10).
    4: specialize (G''' C) as (_ & G1 & G2 & G3 & G4 & G5 & G6 & G7 & G8 & G9 & G10).
    all: rewrite L in *; refine (conj G1 (conj G2 (conj G3 (conj G4 (conj G5 (conj G6 (conj G7 (conj G8 (conj G9 _))))))))); exact (connect _ _ Hp G10).
  Qed.
  Lemma filters_perm (cs : list (hop -> bool)) l : (forall p, In p l -> length (filter (fun b => b) (map (fun c => c (H (fst p) (snd p))) cs)) = 1%nat) ->
    Permutation l (concat (map (fun c => filter (fun p => c (H (fst p) (snd p))) l) cs)).
  Proof.
    induction l as [|p l IH]; intros Hc.
    - clear. induction cs; cbn; auto.
    - specialize (Hc p (or_introl eq_refl)) as H1. assert (IH' := IH (fun q Hq => Hc q (or_intror Hq))). clear IH Hc.
      transitivity (p :: concat (map (fun c => filter (fun p => c (H (fst p) (snd p))) l) cs)); [now constructor|]. clear IH'.
      assert (G : forall cs, length (filter (fun b => b) (map (fun c => c (H (fst p) (snd p))) cs)) = 0%nat ->
        concat (map (fun c => filter (fun p => c (H (fst p) (snd p))) (p :: l)) cs) = concat (map (fun c => filter (fun p => c (H (fst p) (snd p))) l) cs)).
      { induction cs0 as [|c cs0 IH]; [reflexivity|]. cbn [map concat filter]. destruct (c (H (fst p) (snd p))); [discriminate|]. intros E0. f_equal. now apply IH. }
      induction cs as [|c cs IH]; [discriminate|]. cbn [map filter] in H1. cbn [map concat].
      assert (E1 : filter (fun p => c (H (fst p) (snd p))) (p :: l) = if c (H (fst p) (snd p)) then p :: filter (fun p => c (H (fst p) (snd p))) l else filter (fun p => c (H (fst p) (snd p))) l) by reflexivity.
      rewrite E1. destruct (c (H (fst p) (snd p))); cbn [length] in H1.
      + injection H1 as H1. rewrite (G _ H1). reflexivity.
      + rewrite <- (IH H1). apply Permutation_middle.
  Qed.
  Lemma pairs_once : Permutation scai (map pair_of (t_null T ++ t_1c T ++ t_1s T ++ t_1s1c T ++ t_2c T)).
  Proof.
    rewrite t_1c_eq, t_1s_eq, t_1s1c_eq, t_2c_eq. rewrite !map_app. change (t_null T) with (select H c_null (fun _ => []) no_spin scai). rewrite !select_pairs.
    rewrite <- !app_assoc.
    pose proof (filters_perm [c_null; c_1c; c_1s; c_1s1c; c_1s1cT; c_pair; c_split; c_coal; c_scat] scai) as P.
    cbn [map concat] in P. rewrite app_nil_r in P. apply P. intros p Hp. destruct (hop_class p Hp) as [_ O]. exact O.
  Qed.
  Lemma rows_null r : In r (t_null T) -> In (pair_of r) scai /\ e_frags r = [] /\ connects nfrags nelec (e_bra r) (e_ket r) ([], []).
  Proof.
    change (t_null T) with (select H c_null (fun _ => []) no_spin scai). intros Hr. apply in_select in Hr as (Hp & C & F & S). split; [exact Hp|]. split; [exact F|].
    destruct (hop_class _ Hp) as ((G & _) & _). exact (connect _ _ Hp (G C)).
  Qed.
End S.

(** Hypotheses: one pair of electron numbers per fragment, and pairs of rootspaces accepted by the C test. *)
Definition admissible (nfrags : nat) (nelec : nat -> list (Z * Z)) (scai : list (nat * nat)) : Prop := forall p, In p scai ->
  length (nelec (fst p)) = nfrags /\ length (nelec (snd p)) = nfrags /\ is_interaction_coupled (nelec (fst p)) (nelec (snd p)) = true.

(** Every row names operators that take the electron numbers of the ket to those of the bra. *)
Theorem C54_rows : forall nfrags nelec scai, admissible nfrags nelec scai ->
  let T := make_exc_tables nfrags (hopping_index nelec) scai in
  (forall r, In r (t_null T) -> e_frags r = [] /\ connects nfrags nelec (e_bra r) (e_ket r) ([], [])) /\
  (forall r, In r (t_1c T) -> exists i j s, e_frags r = [i; j] /\ e_spin r = Some s /\
    (i < nfrags)%nat /\ (j < nfrags)%nat /\ i <> j /\ (s < 2)%nat /\ connects nfrags nelec (e_bra r) (e_ket r) (ops_1c i j s)) /\
  (forall r, In r (t_1s T) -> exists i j, e_frags r = [i; j] /\
    (i < nfrags)%nat /\ (j < nfrags)%nat /\ i <> j /\ connects nfrags nelec (e_bra r) (e_ket r) (ops_1s i j)) /\
  (forall r, In r (t_1s1c T) -> exists i j k s, e_frags r = [i; j; k] /\ e_spin r = Some s /\
    (i < nfrags)%nat /\ (j < nfrags)%nat /\ (k < nfrags)%nat /\ NoDup [i; j; k] /\ (s < 2)%nat /\
    connects nfrags nelec (e_bra r) (e_ket r) (ops_1s1c i j k s)) /\
  (forall r, In r (t_2c T) -> exists i j k l s, e_frags r = [i; j; k; l] /\ e_spin r = Some s /\
    (i < nfrags)%nat /\ (j < nfrags)%nat /\ (k < nfrags)%nat /\ (l < nfrags)%nat /\ i <> j /\ i <> l /\ k <> j /\ k <> l /\ (s < 3)%nat /\
    connects nfrags nelec (e_bra r) (e_ket r) (ops_2c i j k l s)).
Proof.
  intros nfrags nelec scai A T. assert (A1 : forall p, In p scai -> length (nelec (fst p)) = nfrags /\ length (nelec (snd p)) = nfrags) by (intros p Hp; destruct (A p Hp) as (? & ? & ?); auto).
  assert (A2 : forall p, In p scai -> is_interaction_coupled (nelec (fst p)) (nelec (snd p)) = true) by (intros p Hp; apply (A p Hp)).
  refine (conj _ (conj _ (conj _ (conj _ _)))); intros r Hr.
  - exact (proj2 (rows_null _ _ _ A1 A2 r Hr)).
  - exact (proj2 (rows_1c _ _ _ A1 A2 r Hr)).
  - exact (proj2 (rows_1s _ _ _ A1 A2 r Hr)).
  - exact (proj2 (rows_1s1c _ _ _ A1 A2 r Hr)).
  - exact (proj2 (rows_2c _ _ _ A1 A2 r Hr)).
Qed.
Print Assumptions C54_rows.

(** Every accepted pair of rootspaces is in exactly one row of exactly one of the five tables. *)
Theorem C54_each_once : forall nfrags nelec scai, admissible nfrags nelec scai ->
  let T := make_exc_tables nfrags (hopping_index nelec) scai in
  Permutation scai (map pair_of (t_null T ++ t_1c T ++ t_1s T ++ t_1s1c T ++ t_2c T)).
Proof. intros nfrags nelec scai A T. apply pairs_once; intros p Hp; destruct (A p Hp) as (? & ? & ?); auto. Qed.
Print Assumptions C54_each_once.

Lemma in_extend l fr r : In r (extend l fr) <-> exists r0 f, In r0 l /\ In f fr /\ r = mkRow (e_bra r0) (e_ket r0) (e_frags r0 ++ f) (e_spin r0).
Proof.
  unfold extend. rewrite in_flat_map. split.
  - intros (r0 & H0 & H1). apply in_map_iff in H1 as (f & <- & Hf). eauto.
  - intros (r0 & f & H0 & Hf & ->). exists r0. split; [exact H0|]. apply in_map_iff. eauto.
Qed.
Lemma extend_nodup l fr : NoDup l -> NoDup fr -> (exists n, forall f, In f fr -> length f = n) -> NoDup (extend l fr).
Proof.
  intros Hl Hf (n & Hn). unfold extend. induction Hl as [|r l Hr Hl IH]; cbn; [constructor|]. apply NoDup_app_intro; [|exact IH|].
  - clear -Hf. induction Hf as [|f fr H1 H2 IH]; cbn; constructor; [|exact IH]. intros C. apply in_map_iff in C as (g & E & Hg). injection E as E. apply app_inv_head in E. now subst.
  - intros x Hx Hy. apply in_map_iff in Hx as (f & <- & Hf'). apply in_flat_map in Hy as (r' & Hr' & Hy). apply in_map_iff in Hy as (g & E & Hg).
    injection E as E1 E2 E3 E4. apply Hr. assert (Ef : e_frags r' = e_frags r). { 
      assert (EL : length (e_frags r' ++ g) = length (e_frags r ++ f)) by now rewrite E3. rewrite !app_length, (Hn f Hf'), (Hn g Hg) in EL.
      assert (EL' : length (e_frags r') = length (e_frags r)) by lia. clear -E3 EL'. revert E3 EL'. generalize (e_frags r') (e_frags r). induction l as [|x l IH]; intros [|y m] E L; cbn in *; try lia; auto.
      injection E as -> E. f_equal. apply IH; [exact E | lia]. }
    destruct r, r'; cbn in *. now subst.
Qed.
Lemma in_tril n f : In f (tril n) <-> exists i j, f = [i; j] /\ (j < i < n)%nat.
Proof.
  unfold tril. rewrite in_flat_map. split.
  - intros (i & Hi & H). apply in_map_iff in H as (j & <- & Hj). apply in_seq in Hi, Hj. exists i, j. split; [reflexivity | lia].
  - intros (i & j & -> & L). exists i. split; [apply in_seq; lia|]. apply in_map_iff. exists j. split; [reflexivity | apply in_seq; lia].
Qed.
Lemma tril_nodup n : NoDup (tril n).
Proof.
  unfold tril. assert (G : forall l, NoDup l -> NoDup (flat_map (fun i => map (fun j => [i; j]) (seq 0 i)) l)); [|apply G, seq_NoDup].
  induction 1 as [|i l H1 H2 IH]; cbn; [constructor|]. apply NoDup_app_intro; [|exact IH|].
  - apply FinFun.Injective_map_NoDup; [intros x y E; congruence | apply seq_NoDup].
  - intros x Hx Hy. apply in_map_iff in Hx as (j & <- & _). apply in_flat_map in Hy as (i' & Hi' & Hy). apply in_map_iff in Hy as (j' & E & _). congruence.
Qed.
Lemma select_nodup H c fr sp scai : NoDup scai -> NoDup (select H c fr sp scai).
Proof.
  intros Hn. apply (NoDup_map_inv (fun r => (e_bra r, e_ket r))). unfold select. rewrite map_map. cbn.
  rewrite (map_ext _ (fun p => p)) by (now intros [? ?]). rewrite map_id. now apply NoDup_filter.
Qed.

(** The tables with spectator fragments: every fragment, every unordered pair of fragments and every further fragment once. *)
Theorem C54_spectators : forall nfrags nelec scai, admissible nfrags nelec scai -> NoDup scai ->
  let T := make_exc_tables nfrags (hopping_index nelec) scai in
  (NoDup (t_1d T) /\ NoDup (t_2d T) /\ NoDup (t_1c1d T)) /\
  (forall b k fr s, In (mkRow b k fr s) (t_1d T) <-> exists f, fr = [f] /\ (f < nfrags)%nat /\ In (mkRow b k [] s) (t_null T)) /\
  (forall b k fr s, In (mkRow b k fr s) (t_2d T) <-> exists i j, fr = [i; j] /\ (j < i < nfrags)%nat /\ In (mkRow b k [] s) (t_null T)) /\
  (forall b k fr s, In (mkRow b k fr s) (t_1c1d T) <-> exists i j f, fr = [i; j; f] /\ (f < nfrags)%nat /\ f <> i /\ f <> j /\ In (mkRow b k [i; j] s) (t_1c T)).
Proof.
  intros nfrags nelec scai A Nd T.
  assert (F0 : forall r, In r (t_null T) -> e_frags r = []) by (intros r Hr; exact (proj1 (proj1 (C54_rows _ _ _ A) r Hr))).
  assert (Nf : NoDup (map (fun f : nat => [f]) (seq 0 nfrags))) by (apply FinFun.Injective_map_NoDup; [intros x y E; congruence | apply seq_NoDup]).
  assert (Ln : exists n, forall f, In f (map (fun f : nat => [f]) (seq 0 nfrags)) -> length f = n) by (exists 1%nat; intros f Hf; apply in_map_iff in Hf as (? & <- & _); reflexivity).
  assert (N0 : NoDup (t_null T)) by now apply select_nodup.
  assert (N1 : NoDup (t_1c T)). { cbn. unfold exc_1c. destruct (1 <? nfrags)%nat; [now apply select_nodup | constructor]. }
  assert (E1 : forall r, In r (t_1c T) -> exists i j, e_frags r = [i; j] /\ (i < nfrags)%nat /\ (j < nfrags)%nat /\ i <> j).
  { intros r Hr. destruct (proj1 (proj2 (C54_rows _ _ _ A)) r Hr) as (i & j & s & ? & _ & ? & ? & ? & _). eauto 6. }
  split; [|split; [|split]].
  - split; [|split].
    + now apply extend_nodup.
    + cbn. unfold exc_2d. destruct (1 <? nfrags)%nat; [|constructor]. apply extend_nodup; [exact N0 | apply tril_nodup|]. exists 2%nat. intros f Hf. apply in_tril in Hf as (i & j & -> & _). reflexivity.
    + cbn. unfold exc_1c1d. destruct (2 <? nfrags)%nat; [|constructor]. apply NoDup_filter. now apply extend_nodup.
  - intros b k fr s. cbn [t_1d T make_exc_tables]. unfold exc_1d. rewrite in_extend. split.
    + intros ([b0 k0 f0 s0] & f & H0 & Hf & E). injection E as -> -> -> ->. specialize (F0 _ H0). cbn in F0. subst f0. cbn [e_frags app].
      apply in_map_iff in Hf as (x & <- & Hx). apply in_seq in Hx. exists x. split; [reflexivity|]. split; [lia | exact H0].
    + intros (f & -> & Hf & H0). exists (mkRow b k [] s), [f]. split; [exact H0|]. split; [|reflexivity]. apply in_map_iff. exists f. split; [reflexivity | apply in_seq; lia].
  - intros b k fr s. cbn [t_2d T make_exc_tables]. unfold exc_2d. destruct (Nat.ltb_spec 1 nfrags).
    + rewrite in_extend. split.
      * intros ([b0 k0 f0 s0] & f & H0 & Hf & E). injection E as -> -> -> ->. specialize (F0 _ H0). cbn in F0. subst f0. cbn [e_frags app].
        apply in_tril in Hf as (i & j & -> & L). exists i, j. split; [reflexivity|]. split; [lia | exact H0].
      * intros (i & j & -> & L & H0). exists (mkRow b k [] s), [i; j]. split; [exact H0|]. split; [|reflexivity]. apply in_tril. eauto.
    + split; [intros [] | intros (i & j & _ & L & _); lia].
  - intros b k fr s. cbn [t_1c1d T make_exc_tables]. unfold exc_1c1d. destruct (Nat.ltb_spec 2 nfrags).
    + rewrite filter_In, in_extend. split.
      * intros [([b0 k0 f0 s0] & f & H0 & Hf & E) C]. injection E as -> -> -> ->. destruct (E1 _ H0) as (i & j & E & _). cbn in E. subst f0. cbn [e_frags app] in C |- *.
        apply in_map_iff in Hf as (x & <- & Hx). apply in_seq in Hx. cbn in C. exists i, j, x. apply negb_true_iff, orb_false_iff in C as [C1 C2]. apply Nat.eqb_neq in C1, C2.
        split; [reflexivity|]. split; [lia|]. split; [congruence|]. split; [congruence | exact H0].
      * intros (i & j & f & -> & Hf & Fi & Fj & H0). split.
        -- exists (mkRow b k [i; j] s), [f]. split; [exact H0|]. split; [|reflexivity]. apply in_map_iff. exists f. split; [reflexivity | apply in_seq; lia].
        -- cbn. apply negb_true_iff, orb_false_iff. split; apply Nat.eqb_neq; congruence.
    + split; [intros []|]. intros (i & j & f & _ & Hf & Fi & Fj & H0). destruct (E1 _ H0) as (i' & j' & E & L1 & L2 & L3). cbn in E. injection E as <- <-. lia.
Qed.
Print Assumptions C54_spectators.

(** From the electron numbers of all rootspaces: an unordered pair of rootspaces at most two electron moves apart is in
    exactly one row, with the larger index first; no other pair is in any row. *)
Theorem C54_lower : forall n nfrags nelec, (forall r, (r < n)%nat -> length (nelec r) = nfrags) ->
  let coupled b k := is_interaction_coupled (nelec b) (nelec k) in
  let T := make_exc_tables nfrags (hopping_index nelec) (lower true (all_pairs n n coupled)) in
  let l := map pair_of (t_null T ++ t_1c T ++ t_1s T ++ t_1s1c T ++ t_2c T) in
  NoDup l /\ (forall b k, In (b, k) l <-> (k <= b < n)%nat /\ coupled b k = true).
Proof.
  intros n nfrags nelec L coupled T l. destruct (C20_each_once n coupled) as [N I].
  assert (A : admissible nfrags nelec (lower true (all_pairs n n coupled))).
  { intros [b k] Hp. unfold lower in Hp. apply filter_In in Hp as [Hp _]. apply I in Hp as (? & ? & C). cbn. auto. }
  pose proof (C54_each_once _ _ _ A) as P. fold T l in P. split.
  - apply (Permutation_NoDup P). now apply NoDup_filter.
  - intros b k. assert (PI : In (b, k) l <-> In (b, k) (lower true (all_pairs n n coupled))) by (split; apply Permutation_in; [now symmetry | exact P]). rewrite PI. unfold lower. rewrite filter_In, I. cbn. rewrite Nat.leb_le. intuition lia.
Qed.
Print Assumptions C54_lower.

(** Five fragments; rootspace 0 is the reference, the others differ by a charge transfer (1), a spin exchange (2), a pair
    transfer split over two fragments (3) and a charge transfer that also flips a spin on a third fragment (4). *)
Definition ex_nelec (r : nat) : list (Z * Z) := nth r
  [[(2, 2); (1, 1); (2, 1); (1, 2); (1, 1)]; [(1, 2); (2, 1); (2, 1); (1, 2); (1, 1)]; [(2, 2); (1, 1); (1, 2); (2, 1); (1, 1)];
   [(1, 1); (1, 2); (3, 1); (1, 2); (1, 1)]; [(1, 2); (1, 2); (3, 0); (1, 2); (1, 1)]] [].
Example C54_example :
  let T := make_exc_tables 5 (hopping_index ex_nelec) (lower true (all_pairs 5 5 (fun b k => is_interaction_coupled (ex_nelec b) (ex_nelec k)))) in
  (length (t_null T), length (t_1d T), length (t_2d T), length (t_1c1d T)) = (5, 25, 50, 6)%nat /\
  t_1c T = [mkRow 1 0 [1; 0]%nat (Some 0%nat); mkRow 4 3 [0; 2]%nat (Some 1%nat)] /\
  t_1s T = [mkRow 2 0 [3; 2]%nat None; mkRow 4 1 [2; 1]%nat None] /\
  t_1s1c T = [mkRow 3 1 [2; 0; 1]%nat (Some 0%nat); mkRow 4 0 [1; 0; 2]%nat (Some 1%nat)] /\
  t_2c T = [mkRow 3 0 [2; 0; 1; 0]%nat (Some 1%nat)].
Proof. vm_compute. repeat split. Qed.
