(** What one unique interaction and one of its images add to the transition density matrices. *)
From Coq Require Import List ZArith Bool Arith Lia Permutation Ring.
From Verif Require Import Base BaseFacts Star AddrModel AddrFacts AddrSpec AddrProofs ExcModel UexcModel StdmModel StdmFacts.
Import ListNotations.
Local Open Scope nat_scope.

Definition spectators (n : nat) (fr : list nat) : list nat := filter (fun f => negb (existsb (Nat.eqb f) fr)) (seq 0 n).

Section Sum.
  Context {K : star_ring} {X : Type}.
  Add Ring Kring : (sring K).
  Variables (half : K) (big : K -> bool) (pyset : list nat -> list nat) (lroots : list (list nat)).
  Variables (ovlp : nat -> nat -> nat -> list (list K)) (spin_shuffle : nat -> K) (frag_shuffle : nat -> list nat -> K).
  Variables (ra : list nat) (fa : list (list nat)).
  Variable D : nat -> list nat -> option nat -> nat * list nat -> nat * list nat -> X -> K.
  Let n := length lroots.
  Let nroots := length (hd [] lroots).
  Let col r := column lroots r.
  Hypothesis Hne : lroots <> [].
  Hypothesis Hrect : Forall (fun row => length row = nroots) lroots.
  Hypothesis Hget : get_rootaddr_fragaddr lroots = Ok (ra, fa).
  Hypothesis Hpos : forall r f, r < nroots -> f < n -> 0 < nth f (col r) 0.
  Hypothesis Hset : forall l, NoDup (pyset l) /\ forall f, In f (pyset l) <-> In f l.
  Hypothesis Hsort : forall fr, pyset (spectators n fr) = spectators n fr.
  Hypothesis Hov : forall f b k, f < n -> b < nroots -> k < nroots -> shaped (ovlp f b k) (nth f (col b) 0) (nth f (col k) 0).

  (** the overlap of the spectators, with the sign of the reordering *)
  Definition weight (b k : nat) (fr e e' : list nat) : K :=
    (smul (smul (smul (smul (spin_shuffle b) (spin_shuffle k)) (frag_shuffle b (pyset fr))) (frag_shuffle k (pyset fr)))
      (bprod (spectators n fr) (fun f => mat_at (ovlp f b k) (nth f e 0) (nth f e' 0)))).
  (** what the list of spectator pairs holds: halves on the diagonal of a rootspace, nothing above it *)
  Definition listed (b k : nat) (fr e e' : list nat) : K :=
    let v := weight b k fr e e' in let i := pack (col b) (spectators n fr) e in let j := pack (col k) (spectators n fr) e' in
    if big v && (if b =? k then j <=? i else true) then (if (b =? k) && (i =? j) then smul v half else v) else s0.
  (** the other fragments in their zeroth state *)
  Definition zeroed (fr e : list nat) : list nat := map (fun f => if existsb (Nat.eqb f) fr then nth f e 0 else 0) (seq 0 n).

  Lemma in_spec fr f : In f (spectators n fr) <-> f < n /\ ~ In f fr.
  Proof.
    unfold spectators. rewrite filter_In, in_seq, negb_true_iff. split.
    - intros [H1 H2]. split; [lia|]. intros C. assert (existsb (Nat.eqb f) fr = true) by (apply existsb_exists; exists f; split; [exact C | apply Nat.eqb_refl]). congruence.
    - intros [H1 H2]. split; [lia|]. destruct (existsb (Nat.eqb f) fr) eqn:E; [|reflexivity]. apply existsb_exists in E as (g & Hg & E). apply Nat.eqb_eq in E as ->. contradiction.
  Qed.
  Lemma spec_set fr : filter (fun f => negb (existsb (Nat.eqb f) (pyset fr))) (seq 0 n) = spectators n fr.
  Proof.
    unfold spectators. apply filter_ext. intros f. f_equal. apply Bool.eq_iff_eq_true. rewrite !existsb_exists. split; intros (g & Hg & E); exists g; (split; [now apply Hset|exact E]).
  Qed.
  Lemma cover fr : (forall f, In f fr -> f < n) -> Permutation (pyset fr ++ spectators n fr) (seq 0 n).
  Proof.
    intros Hf. apply NoDup_Permutation; [|apply seq_NoDup|].
    - apply NoDup_app_intro; [apply Hset | apply NoDup_filter, seq_NoDup|]. intros f H1 H2. apply in_spec in H2 as [_ H2]. apply H2. now apply Hset.
    - intros f. rewrite in_app_iff, in_spec, in_seq. rewrite (proj2 (Hset fr) f). split; [intros [H|[H _]]; [apply Hf in H; lia|lia]|]. intros H. destruct (in_dec Nat.eq_dec f fr); [now left|right; split; [lia|assumption]].
  Qed.
  Lemma zeroed_nth fr e f : f < n -> nth f (zeroed fr e) 0 = if existsb (Nat.eqb f) fr then nth f e 0 else 0.
  Proof. intros H. unfold zeroed. now rewrite nth_map_seq0. Qed.
  Lemma zeroed_in fr e f : f < n -> In f fr -> nth f (zeroed fr e) 0 = nth f e 0.
  Proof.
    intros H I. rewrite zeroed_nth by exact H. replace (existsb (Nat.eqb f) fr) with true; [reflexivity|]. symmetry. apply existsb_exists. exists f. split; [exact I|apply Nat.eqb_refl].
  Qed.
  Lemma zeroed_out fr e f : f < n -> ~ In f fr -> nth f (zeroed fr e) 0 = 0.
  Proof.
    intros H I. rewrite zeroed_nth by exact H. destruct (existsb (Nat.eqb f) fr) eqn:E; [|reflexivity]. apply existsb_exists in E as (g & Hg & E). apply Nat.eqb_eq in E as ->. contradiction.
  Qed.
  Lemma state_unique r e r' e' : r < nroots -> r' < nroots -> in_range (col r) e -> in_range (col r') e' -> address lroots r e = address lroots r' e' -> r = r' /\ e = e'.
  Proof.
    intros Hr Hr' R R' E. destruct (rootaddr_fragaddr_spec lroots nroots Hne Hrect) as (ra' & fa' & E1 & _ & _ & _ & _ & Hst).
    pose proof (proj2 (Hst _ r e) (conj Hr (conj R eq_refl))) as S1. pose proof (proj2 (Hst _ r' e') (conj Hr' (conj R' eq_refl))) as S2.
    fold (address lroots r e) in S1. fold (address lroots r' e') in S2. rewrite <- E in S2. destruct S1 as [A1 B1], S2 as [A2 B2]. split; [congruence|].
    clear -B1 B2. revert B1 B2. generalize (address lroots r e). intros k B1 B2. revert e' B2. induction B1 as [|row x l e0 H1 H2 IH]; intros e' B2; inversion B2; subst; [reflexivity|]. f_equal; [congruence|]. now apply IH.
  Qed.
  Lemma state_at_address r e : r < nroots -> in_range (col r) e -> state_of ra fa (address lroots r e) = (r, e).
  Proof.
    intros Hr R. destruct (rootaddr_fragaddr_spec lroots nroots Hne Hrect) as (ra' & fa' & E1 & _ & _ & _ & _ & Hst). rewrite Hget in E1. injection E1 as <- <-.
    pose proof (proj2 (Hst _ r e) (conj Hr (conj R eq_refl))) as [A B]. unfold state_of. fold (address lroots r e) in *. f_equal; [now apply nth_error_nth|].
    unfold env_at. clear -B. revert B. generalize (address lroots r e). intros k B. induction B as [|row x l e0 H1 H2 IH]; [reflexivity|]. cbn. rewrite IH. f_equal. now apply nth_error_nth.
  Qed.

  Section Image.
    Variables (fr : list nat) (rb b1 : nat).
    Hypothesis Hfr : forall f, In f fr -> f < n.
    Hypothesis Hrb : rb < nroots.
    Hypothesis Hb1 : b1 < nroots.
    Hypothesis Hsame : forall f, In f fr -> nth f (col rb) 0 = nth f (col b1) 0.
    Let sp := spectators n fr.
    Lemma pair_address a i : a < prodN (sel (col rb) (pyset fr)) -> i < prodN (sel (col b1) sp) ->
      let A := nth a (get_addr_range pyset lroots rb fr) 0 in
      exists m, in_range (col b1) m /\ a = pack (col b1) (pyset fr) m /\ i = pack (col b1) sp m /\
        nth i (get_addr_range pyset lroots b1 sp) 0 + dotN (env_at fa A) (strides lroots b1) = address lroots b1 m /\
        state_of ra fa A = (rb, zeroed fr m).
    Proof.
      intros Ha Hi A.
      assert (Es : sel (col rb) (pyset fr) = sel (col b1) (pyset fr)) by (unfold sel; apply map_ext_in; intros f If; apply Hsame; now apply Hset).
      rewrite Es in Ha. assert (Lc : length (col b1) = n) by apply col_len.
      destruct (merge (col b1) (pyset fr) sp a i) as (m & R & P1 & P2); auto.
      - apply Hset.
      - apply NoDup_filter, seq_NoDup.
      - intros f Hf. rewrite Lc in Hf. destruct (in_dec Nat.eq_dec f fr) as [I|I]; [left; now apply Hset | right; apply in_spec; auto].
      - intros f I1 I2. apply in_spec in I2 as [_ I2]. apply I2. now apply Hset.
      - intros f [I|I]; rewrite Lc; [apply Hfr; now apply Hset | now apply in_spec in I].
      - exists m. split; [exact R|]. split; [now symmetry|]. split; [now symmetry|].
        assert (Rz : in_range (col rb) (zeroed fr m)).
        { apply in_range_nth. unfold zeroed at 1. rewrite map_length, seq_length. split; [symmetry; apply col_len|]. intros f Hf. unfold col in Hf. rewrite col_len in Hf. fold n in Hf.
          destruct (in_dec Nat.eq_dec f fr) as [I|I]; [rewrite zeroed_in, Hsame by auto; apply in_range_nth in R as [_ R]; apply R; now rewrite Lc | rewrite zeroed_out by auto; now apply Hpos]. }
        assert (Ez : forall f, In f (pyset fr) -> nth f (zeroed fr m) 0 = nth f m 0) by (intros f If; apply (proj1 (proj2 (Hset fr) f)) in If; apply zeroed_in; auto).
        assert (EA : A = address lroots rb (zeroed fr m)).
        { unfold A. rewrite <- P1. rewrite (pack_ext (col b1) (col rb) (pyset fr) m (zeroed fr m)); [|intros f If; symmetry; apply Hsame; now apply Hset | intros f If; symmetry; auto].
          change (col rb) with (column lroots rb). rewrite (range_nth pyset lroots rb fr (zeroed fr m) Rz) by (intros f If; apply Hfr; now apply Hset).
          rewrite (address_parts lroots rb (pyset fr) sp (zeroed fr m) Hrb Rz (cover fr Hfr)). replace (part lroots rb sp (zeroed fr m)) with 0; [lia|].
          unfold part. assert (Z : forall f, In f sp -> nth f (zeroed fr m) 0 = 0) by (intros f If; apply in_spec in If as [? ?]; now apply zeroed_out).
          revert Z. generalize sp. intros l Z. induction l as [|f l IH]; [reflexivity|]. cbn. rewrite (Z f) by now left. rewrite <- IH; [lia|]. intros; apply Z; now right. }
        assert (ES : state_of ra fa A = (rb, zeroed fr m)) by (rewrite EA; now apply state_at_address). split; [|exact ES].
        assert (EE : env_at fa A = zeroed fr m) by (unfold state_of in ES; congruence). rewrite EE.
        rewrite (dot_part lroots b1 (zeroed fr m) (pyset fr) sp); [|unfold zeroed; now rewrite map_length, seq_length | exact (cover fr Hfr) | intros f If; apply in_spec in If as [? ?]; now apply zeroed_out].
        rewrite (part_ext lroots b1 _ _ m Ez). rewrite <- P2.
        replace (pack (col b1) sp m) with (pack (column lroots b1) (pyset sp) m) by (unfold sp; now rewrite Hsort).
        rewrite (range_nth pyset lroots b1 sp m R) by (unfold sp; rewrite Hsort; intros f If; now apply in_spec in If).
        rewrite (address_parts lroots b1 (pyset fr) sp m Hb1 R (cover fr Hfr)). unfold sp at 1. rewrite Hsort. fold sp. lia.
    Qed.
  End Image.

  Definition bsum4 (na nc nb nd : nat) (F : nat -> nat -> nat -> nat -> K) : K :=
    bsum (seq 0 na) (fun a => bsum (seq 0 nc) (fun c => bsum (seq 0 nb) (fun i => bsum (seq 0 nd) (fun j => F a c i j)))).
  Lemma bsum4_zero na nc nb nd F : (forall a c i j, a < na -> c < nc -> i < nb -> j < nd -> F a c i j = s0) -> bsum4 na nc nb nd F = s0.
  Proof.
    intros H. unfold bsum4. apply bsum_0. intros a Ha. apply in_seq in Ha. apply bsum_0. intros c Hc. apply in_seq in Hc. apply bsum_0. intros i Hi. apply in_seq in Hi. apply bsum_0. intros j Hj. apply in_seq in Hj. apply H; lia.
  Qed.
  Lemma bsum4_one na nc nb nd F a0 c0 i0 j0 : a0 < na -> c0 < nc -> i0 < nb -> j0 < nd ->
    (forall a c i j, a < na -> c < nc -> i < nb -> j < nd -> ~ (a = a0 /\ c = c0 /\ i = i0 /\ j = j0) -> F a c i j = s0) -> bsum4 na nc nb nd F = F a0 c0 i0 j0.
  Proof.
    intros H1 H2 H3 H4 H. unfold bsum4.
    rewrite (bsum_single K (seq 0 na) _ a0); [|apply seq_NoDup|apply in_seq; lia|].
    2:{ intros a Ha N. apply in_seq in Ha. apply bsum_0. intros c Hc. apply in_seq in Hc. apply bsum_0. intros i Hi. apply in_seq in Hi. apply bsum_0. intros j Hj. apply in_seq in Hj. apply H; lia. }
    rewrite (bsum_single K (seq 0 nc) _ c0); [|apply seq_NoDup|apply in_seq; lia|].
    2:{ intros c Hc N. apply in_seq in Hc. apply bsum_0. intros i Hi. apply in_seq in Hi. apply bsum_0. intros j Hj. apply in_seq in Hj. apply H; lia. }
    rewrite (bsum_single K (seq 0 nb) _ i0); [|apply seq_NoDup|apply in_seq; lia|].
    2:{ intros i Hi N. apply in_seq in Hi. apply bsum_0. intros j Hj. apply in_seq in Hj. apply H; lia. }
    apply (bsum_single K (seq 0 nd) _ j0); [apply seq_NoDup|apply in_seq; lia|]. intros j Hj N. apply in_seq in Hj. apply H; lia.
  Qed.
  Lemma add_zero (x : K) : sadd x s0 = x.
  Proof. ring. Qed.
  Lemma map_nth_self (l : list nat) : l = map (fun i => nth i l 0) (seq 0 (length l)).
  Proof. apply (nth_ext _ _ 0 0); [now rewrite map_length, seq_length|]. intros i Hi. now rewrite nth_map_seq0. Qed.

  (** contribution of row [fr, s] between rootspaces rb, rk through its image (b1, k1) to the element (A, B) *)
  Definition contrib (lbl : nat) (fr : list nat) (s : option nat) (rb rk : nat) (p : nat * nat) (A B : nat) (x : X) : K :=
    bsum (list_prod (get_addr_range pyset lroots rb fr) (get_addr_range pyset lroots rk fr)) (fun ac =>
      bsum (spec_addr_ovlp_1space half big pyset lroots ovlp spin_shuffle frag_shuffle (fst p) (snd p) fr) (fun e =>
        let '(b, k, o) := e in
        if (b + dotN (env_at fa (fst ac)) (strides lroots (fst p)) =? A) && (k + dotN (env_at fa (snd ac)) (strides lroots (snd p)) =? B)
        then smul (D lbl fr s (state_of ra fa (fst ac)) (state_of ra fa (snd ac)) x) o else s0)).

  Lemma contrib_value lbl fr s rb rk b1 k1 r e r' e' x :
    (forall f, In f fr -> f < n) -> rb < nroots -> rk < nroots -> b1 < nroots -> k1 < nroots ->
    (forall f, In f fr -> nth f (col rb) 0 = nth f (col b1) 0) -> (forall f, In f fr -> nth f (col rk) 0 = nth f (col k1) 0) ->
    r < nroots -> r' < nroots -> in_range (col r) e -> in_range (col r') e' ->
    contrib lbl fr s rb rk (b1, k1) (address lroots r e) (address lroots r' e') x =
    if (b1 =? r) && (k1 =? r') then smul (D lbl fr s (rb, zeroed fr e) (rk, zeroed fr e') x) (listed b1 k1 fr e e') else s0.
  Proof.
    intros Hfr Hrb Hrk Hb1 Hk1 Hsb Hsk Hr Hr' R R'. set (sp := spectators n fr). unfold contrib. cbn [fst snd].
    rewrite bsum_list_prod. rewrite (map_nth_self (get_addr_range pyset lroots rb fr)) at 1. rewrite bsum_map, range_len.
    unfold spec_addr_ovlp_1space. fold n. rewrite spec_set. fold sp.
    set (fac := smul (smul (smul (spin_shuffle b1) (spin_shuffle k1)) (frag_shuffle b1 (pyset fr))) (frag_shuffle k1 (pyset fr))).
    set (o := fold_left (fun o f => kron (ovlp f b1 k1) o) sp [[fac]]).
    destruct (spec_matrix (fun f => ovlp f b1 k1) (col b1) (col k1) fac) with (l := sp) as [So Ho].
    { unfold col. now rewrite !col_len. }
    { intros f Hf. unfold col in Hf. rewrite col_len in Hf. apply Hov; auto. }
    { intros f Hf. apply in_spec in Hf. unfold col. rewrite col_len. apply Hf. }
    fold o in So, Ho.
    set (nb := prodN (sel (col b1) sp)) in *. set (nd := prodN (sel (col k1) sp)) in *.
    set (A := address lroots r e). set (B := address lroots r' e').
    set (F := fun a c i j => let v := nth j (nth i o []) s0 in
      if big v && (if b1 =? k1 then j <=? i else true) then
        (if (nth i (get_addr_range pyset lroots b1 sp) 0 + dotN (env_at fa (nth a (get_addr_range pyset lroots rb fr) 0)) (strides lroots b1) =? A) &&
            (nth j (get_addr_range pyset lroots k1 sp) 0 + dotN (env_at fa (nth c (get_addr_range pyset lroots rk fr) 0)) (strides lroots k1) =? B)
         then smul (D lbl fr s (state_of ra fa (nth a (get_addr_range pyset lroots rb fr) 0)) (state_of ra fa (nth c (get_addr_range pyset lroots rk fr) 0)) x) (if (b1 =? k1) && (i =? j) then smul v half else v)
         else s0) else s0).
    transitivity (bsum4 (prodN (sel (col rb) (pyset fr))) (prodN (sel (col rk) (pyset fr))) nb nd F).
    { unfold bsum4. apply bsum_ext. intros a _. rewrite (map_nth_self (get_addr_range pyset lroots rk fr)) at 1. rewrite bsum_map, range_len. apply bsum_ext. intros c _.
      rewrite bsum_flat_map, (proj1 So). apply bsum_ext. intros i Hi. apply in_seq in Hi. rewrite bsum_flat_map, (shaped_row o nb nd) by (auto; lia). apply bsum_ext. intros j _. unfold F. cbn zeta.
      destruct (big (nth j (nth i o []) s0) && (if b1 =? k1 then j <=? i else true)); cbn [bsum]; [rewrite add_zero; reflexivity|reflexivity]. }
    assert (Fz : forall a c i j, a < prodN (sel (col rb) (pyset fr)) -> c < prodN (sel (col rk) (pyset fr)) -> i < nb -> j < nd ->
      ~ (b1 = r /\ k1 = r' /\ a = pack (col b1) (pyset fr) e /\ c = pack (col k1) (pyset fr) e' /\ i = pack (col b1) sp e /\ j = pack (col k1) sp e') -> F a c i j = s0).
    { intros a c i j Ha Hc Hi Hj N. unfold F. cbn zeta. destruct (_ && _); [|reflexivity].
      destruct (pair_address fr rb b1 Hfr Hrb Hb1 Hsb a i Ha Hi) as (m & Rm & Em1 & Em2 & Em3 & _). destruct (pair_address fr rk k1 Hfr Hrk Hk1 Hsk c j Hc Hj) as (m' & Rm' & Em1' & Em2' & Em3' & _).
      fold sp in Em2, Em3, Em2', Em3'. rewrite Em3, Em3'. destruct (Nat.eqb_spec (address lroots b1 m) A) as [E1|]; [|reflexivity]. destruct (Nat.eqb_spec (address lroots k1 m') B) as [E2|]; [|reflexivity].
      exfalso. apply N. destruct (state_unique b1 m r e Hb1 Hr Rm R E1) as [-> ->]. destruct (state_unique k1 m' r' e' Hk1 Hr' Rm' R' E2) as [-> ->]. auto 10. }
    destruct (Nat.eqb_spec b1 r) as [Eb|Nb]; [|cbn; apply bsum4_zero; intros; apply Fz; tauto]. destruct (Nat.eqb_spec k1 r') as [Ek|Nk]; [|cbn; apply bsum4_zero; intros; apply Fz; tauto].
    subst r r'. cbn [andb].
    assert (Hin : forall g, In g (pyset fr) -> g < n) by (intros g Hg; apply Hfr; now apply Hset).
    assert (Hsp : forall g, In g sp -> g < n) by (intros g Hg; now apply in_spec in Hg).
    assert (L1 : forall q, length (col q) = n) by (intros; apply col_len).
    assert (E1 : sel (col rb) (pyset fr) = sel (col b1) (pyset fr)) by (unfold sel; apply map_ext_in; intros f If; apply Hsb; now apply Hset).
    assert (E2 : sel (col rk) (pyset fr) = sel (col k1) (pyset fr)) by (unfold sel; apply map_ext_in; intros f If; apply Hsk; now apply Hset).
    assert (I1 : pack (col b1) (pyset fr) e < prodN (sel (col rb) (pyset fr))) by (rewrite E1; apply pack_lt; auto; intros; rewrite L1; auto).
    assert (I2 : pack (col k1) (pyset fr) e' < prodN (sel (col rk) (pyset fr))) by (rewrite E2; apply pack_lt; auto; intros; rewrite L1; auto).
    assert (I3 : pack (col b1) sp e < nb) by (apply pack_lt; auto; intros; rewrite L1; auto).
    assert (I4 : pack (col k1) sp e' < nd) by (apply pack_lt; auto; intros; rewrite L1; auto).
    rewrite (bsum4_one _ _ _ _ F _ _ _ _ I1 I2 I3 I4) by (intros; apply Fz; auto; tauto).
    destruct (pair_address fr rb b1 Hfr Hrb Hb1 Hsb _ _ I1 I3) as (m & Rm & Em1 & Em2 & Em3 & Em4). destruct (pair_address fr rk k1 Hfr Hrk Hk1 Hsk _ _ I2 I4) as (m' & Rm' & Em1' & Em2' & Em3' & Em4').
    assert (Gm : forall q a b, in_range (col q) a -> in_range (col q) b -> pack (col q) (pyset fr) a = pack (col q) (pyset fr) b -> pack (col q) sp a = pack (col q) sp b -> a = b).
    { intros q a b Ra Rb P1 P2. pose proof (in_range_length _ _ Ra) as La. pose proof (in_range_length _ _ Rb) as Lb. apply (nth_ext _ _ 0 0); [congruence|]. intros f Hf. rewrite La, L1 in Hf.
      destruct (in_dec Nat.eq_dec f fr) as [I|I].
      - apply (pack_inj (col q) (pyset fr)); auto; [intros; rewrite L1; auto | now apply Hset].
      - apply (pack_inj (col q) sp); auto; [intros; rewrite L1; auto | now apply in_spec]. }
    fold sp in Em2, Em3, Em2', Em3'. assert (m = e) by (apply (Gm b1); auto). assert (m' = e') by (apply (Gm k1); auto). subst m m'.
    unfold F. rewrite Em3, Em3', Em4, Em4'. unfold A, B. rewrite !Nat.eqb_refl. cbn [andb]. change (nth (pack (col k1) sp e') (nth (pack (col b1) sp e) o []) s0) with (mat_at o (pack (col b1) sp e) (pack (col k1) sp e')).
    rewrite (Ho e e' R R'). unfold listed. fold sp. cbn zeta. change (smul fac (bprod sp (fun f => mat_at (ovlp f b1 k1) (nth f e 0) (nth f e' 0)))) with (weight b1 k1 fr e e').
    destruct (big _ && _); [reflexivity|ring].
  Qed.

  (** ** the loops are sums *)
  Definition hitv (d : X -> K) (e : nat * nat * K) (A B : nat) (x : X) : K :=
    let '(b, k, w) := e in if (b =? A) && (k =? B) then smul (d x) w else s0.
  Lemma put_sum d l : forall (t : @tdm K X) A B x, fold_left (put1 d) l t A B x = sadd (t A B x) (bsum l (fun e => hitv d e A B x)).
  Proof.
    induction l as [|[[b k] w] l IH]; intros t A B x; cbn [fold_left bsum]; [ring|]. rewrite IH. unfold put1 at 1, hitv at 2. destruct ((b =? A) && (k =? B)); ring.
  Qed.
  Lemma fold_sum {Y} (step : @tdm K X -> Y -> @tdm K X) (g : Y -> nat -> nat -> X -> K) l :
    (forall t y A B x, In y l -> step t y A B x = sadd (t A B x) (g y A B x)) -> forall t A B x, fold_left step l t A B x = sadd (t A B x) (bsum l (fun y => g y A B x)).
  Proof.
    induction l as [|y l IH]; intros H t A B x; cbn [fold_left bsum]; [ring|]. rewrite IH by (intros; apply H; now right). rewrite H by now left. ring.
  Qed.
  Variable dict : list ((nat * nat * list nat) * list (nat * nat)).
  Lemma loop_lroots_sum lbl t u images : get_key (key_of u) dict = Some images ->
    exists t', loop_lroots half big pyset lroots ovlp spin_shuffle frag_shuffle ra fa D dict lbl t u = Ok t' /\
      forall A B x, t' A B x = sadd (t A B x) (bsum images (fun p => contrib lbl (e_frags u) (e_spin u) (e_bra u) (e_ket u) p A B x)).
  Proof.
    intros E. unfold loop_lroots. rewrite E. eexists. split; [reflexivity|]. intros A B x.
    rewrite (fold_sum _ (fun ac A B x => bsum images (fun p => bsum (spec_addr_ovlp_1space half big pyset lroots ovlp spin_shuffle frag_shuffle (fst p) (snd p) (e_frags u)) (fun e =>
        let '(b, k, o) := e in
        if (b + dotN (env_at fa (fst ac)) (strides lroots (fst p)) =? A) && (k + dotN (env_at fa (snd ac)) (strides lroots (snd p)) =? B)
        then smul (D lbl (e_frags u) (e_spin u) (state_of ra fa (fst ac)) (state_of ra fa (snd ac)) x) o else s0)))).
    - f_equal. rewrite bsum_swap. reflexivity.
    - intros t0 ac A0 B0 x0 _. rewrite put_sum. f_equal. unfold spec_addr_ovlp. rewrite bsum_flat_map, bsum_map. apply bsum_ext. intros p _. rewrite bsum_map. apply bsum_ext. intros [[b k] o] _. reflexivity.
  Qed.
  Lemma loop_rows_sum lbl (rows : list erow) (im : erow -> list (nat * nat)) : (forall u, In u rows -> get_key (key_of u) dict = Some (im u)) -> forall t,
    exists t', loop_rows half big pyset lroots ovlp spin_shuffle frag_shuffle ra fa D dict lbl rows t = Ok t' /\
      forall A B x, t' A B x = sadd (t A B x) (bsum rows (fun u => bsum (im u) (fun p => contrib lbl (e_frags u) (e_spin u) (e_bra u) (e_ket u) p A B x))).
  Proof.
    induction rows as [|u rows IH]; intros H t; cbn [loop_rows bsum].
    - exists t. split; [reflexivity|]. intros. ring.
    - destruct (loop_lroots_sum lbl t u (im u) (H u (or_introl eq_refl))) as (t1 & E1 & V1). rewrite E1. cbn [bind]. destruct (IH (fun v Hv => H v (or_intror Hv)) t1) as (t2 & E2 & V2). exists t2. split; [exact E2|].
      intros. rewrite V2, V1. ring.
  Qed.
End Sum.
