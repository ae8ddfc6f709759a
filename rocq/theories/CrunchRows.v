(** What each cruncher function writes. *)
From Coq Require Import List NArith ZArith Arith Bool Btauto Lia Sorting.Permutation.
From Verif Require Import Base BaseFacts Star FockSpec FockFacts FockOps ProdFock PermFock LprodSpec LasFock LasElem SignsModel SignsFacts LasSigns ExcSpec CrunchModel CrunchSpec CrunchFacts.
Import ListNotations.
Local Open Scope nat_scope.

(** ** balance of creators and annihilators *)
Definition fop_dec (a b : nat * nat) : {a = b} + {a <> b}.
Proof. decide equality; apply Nat.eq_dec. Defined.
Lemma times_count z l : times z l = Z.of_nat (count_occ fop_dec l z).
Proof.
  induction l as [|y l IH]; [reflexivity|]. cbn [times count_occ]. rewrite IH. destruct (fop_dec y z) as [->|Ne].
  - rewrite !Nat.eqb_refl. lia.
  - destruct (Nat.eqb_spec (fst z) (fst y)); [|lia]. destruct (Nat.eqb_spec (snd z) (snd y)); [|lia]. exfalso. apply Ne. destruct y, z; cbn in *; congruence.
Qed.
Lemma submulti c0 : forall c, (forall z, count_occ fop_dec c0 z <= count_occ fop_dec c z) -> exists e, Permutation c (c0 ++ e).
Proof.
  induction c0 as [|x c0 IH]; intros c H; [now exists c|]. assert (I : In x c) by (apply (count_occ_In fop_dec); specialize (H x); cbn [count_occ] in H; destruct (fop_dec x x); [lia|congruence]).
  apply in_split in I as (l1 & l2 & ->). destruct (IH (l1 ++ l2)) as [e He].
  - intros z. specialize (H z). cbn [count_occ] in H. rewrite count_occ_app in *. cbn [count_occ] in H. destruct (fop_dec x z); lia.
  - exists e. cbn [app]. rewrite <- He. symmetry. apply Permutation_middle.
Qed.
Lemma balance c a c0 a0 : (forall z, times z c - times z a = times z c0 - times z a0)%Z -> (forall z, In z c0 -> ~ In z a0) ->
  exists e e', Permutation c (c0 ++ e) /\ Permutation a (a0 ++ e') /\ Permutation e e'.
Proof.
  intros H Dj. assert (Q : forall z, count_occ fop_dec c0 z = 0 \/ count_occ fop_dec a0 z = 0).
  { intros z. destruct (in_dec fop_dec z c0) as [I|I]; [right|left]; now apply count_occ_not_In; auto. }
  destruct (submulti c0 c) as [e He]. { intros z. specialize (H z). rewrite !times_count in H. destruct (Q z); lia. }
  destruct (submulti a0 a) as [e' He']. { intros z. specialize (H z). rewrite !times_count in H. destruct (Q z); lia. }
  exists e, e'. repeat split; auto. apply (Permutation_count_occ fop_dec). intros z. specialize (H z). rewrite !times_count in H.
  apply (Permutation_count_occ fop_dec) with (x := z) in He, He'. rewrite count_occ_app in He, He'. lia.
Qed.

Definition xcre (x : tix) : list fop := match x with X1 s p q => [(fst p, s)] | X2 b p q r u => [(fst p, b / 2); (fst r, b mod 2)] end.
Definition xann (x : tix) : list fop := match x with X1 s p q => [(fst q, s)] | X2 b p q r u => [(fst u, b mod 2); (fst q, b / 2)] end.
Definition xspins (x : tix) : Prop := match x with X1 s _ _ => s < 2 | X2 b _ _ _ _ => b < 4 end.
Lemma xspin_lt x z : xspins x -> In z (xcre x ++ xann x) -> snd z < 2.
Proof.
  destruct x as [s p q|b p q r u]; cbn [xspins xcre xann app].
  - intros H [<-|[<-|[]]]; exact H.
  - intros H. assert (Q : b / 2 < 2 /\ b mod 2 < 2) by (destruct b as [|[|[|[|]]]]; try lia; cbn; lia). intros [<-|[<-|[<-|[<-|[]]]]]; cbn [snd]; tauto.
Qed.
Lemma gain_moves f sg x : sg < 2 -> xspins x -> gain f (down sg) (xops x) = moves (xcre x) (xann x) f sg.
Proof.
  intros H S. assert (E : forall s, s < 2 -> Bool.eqb (down sg) (down s) = (sg =? s)) by (intros s Hs; destruct sg as [|[|]], s as [|[|]]; try lia; reflexivity).
  destruct x as [s p q|b p q r u]; cbn [xspins] in S.
  - cbn [xops]. unfold cr, an. rewrite !gain_cons. change (gain f (down sg) []) with 0%Z. unfold moves. cbn [xcre xann times fst snd]. rewrite E by exact S. rewrite (Nat.eqb_sym (fst p)), (Nat.eqb_sym (fst q)).
    destruct (f =? fst p), (f =? fst q), (sg =? s); reflexivity.
  - assert (B : b / 2 < 2 /\ b mod 2 < 2) by (destruct b as [|[|[|[|]]]]; try lia; cbn; lia). destruct B as [B1 B2].
    cbn [xops]. unfold cr, an. rewrite !gain_cons. change (gain f (down sg) []) with 0%Z. unfold moves. cbn [xcre xann times fst snd]. rewrite (E _ B1), (E _ B2).
    rewrite (Nat.eqb_sym (fst p)), (Nat.eqb_sym (fst q)), (Nat.eqb_sym (fst r)), (Nat.eqb_sym (fst u)).
    destruct (f =? fst p), (f =? fst q), (f =? fst r), (f =? fst u), (sg =? b / 2), (sg =? b mod 2); reflexivity.
Qed.
Lemma gain_parity f ops : Z.odd (gain f false ops + gain f true ops) = parity (Nat.eqb f) (map opfrag ops).
Proof.
  induction ops as [|[k [[g dn] l]] ops IH]; [reflexivity|]. rewrite !gain_cons. cbn [map]. rewrite parity_cons, <- IH. change (opfrag (k, (g, dn, l))) with g. rewrite (Nat.eqb_sym f g).
  destruct (g =? f), dn; cbn [Bool.eqb andb]; rewrite ?xorb_false_l, ?xorb_true_l.
  all: try (rewrite <- Z.negb_even, <- Z.negb_odd, ?Z.even_add, ?Z.odd_add, <- ?Z.negb_odd, ?Z.odd_add; destruct k, (Z.odd (gain f false ops)), (Z.odd (gain f true ops)); reflexivity).
Qed.

Section Rows.
Variables (K : star_ring) (nf : nat) (n : nat -> nat).
Add Ring Kr : (sring K).
Variables (V : nat -> nat -> nat -> vec K) (ne : nat -> nat -> nat * nat) (nl : nat -> nat -> nat).
Variables (ints : nat -> @fmats K) (uroot : nat -> nat -> nat) (nelec_rf : nat -> list nat) (nz : K -> bool).
Hypothesis H8 : nf <= 8.
Hypothesis Hne : forall f a i, f < nf -> i < nl f a -> has_nelec K (n f) (ne f a) (V f a i).
Hypothesis Hex : forall f, f < nf -> exact K n V ne nl f (ints f).
Hypothesis Hfit : forall f a, f < nf -> 0 < nl f a -> fst (ne f a) <= n f /\ snd (ne f a) <= n f.
Hypothesis Hnz : nz s0 = false.
Variables (bra ket : nat * list nat).
Definition tot (r f : nat) : nat := fst (ne f (uroot f r)) + snd (ne f (uroot f r)).
Hypothesis Hbra : nelec_rf (fst bra) = map (tot (fst bra)) (seq 0 nf).
Hypothesis Hket : nelec_rf (fst ket) = map (tot (fst ket)) (seq 0 nf).
Notation A := (fun f => loc uroot f bra).
Notation B := (fun f => loc uroot f ket).
Notation el := (el K n V).
Notation Lx fr x := (Lel K nf n V ne fr A B (xops x)).
Notation pA := (pb ne A).
Notation pB := (pb ne B).
Definition orbb (p : nat * nat) : bool := (fst p <? nf) && (snd p <? n (fst p)).
Definition tixb (x : tix) : bool :=
  match x with X1 s p q => (s <? 2) && orbb p && orbb q | X2 b p q r u => (b <? 4) && orbb p && orbb q && orbb r && orbb u end.
Definition xfr (x : tix) : list nat := map opfrag (xops x).
Definition touch (fr : list nat) (x : tix) : bool := forallb (fun f => mem f fr) (xfr x) && forallb (fun f => mem f (xfr x)) fr.
Definition row_is (fr : list nat) (r : res (tix -> K)) : Prop := exists d, r = Ok d /\ forall x, d x = if tixb x && touch fr x then Lx fr x else s0.
Definition nes (f : nat) (a : nat * nat) (s : nat) : nat := if s =? 0 then fst (ne f (fst a)) else snd (ne f (fst a)).
(** the row: its fragments, the states of these, and the change of their electron numbers *)
Definition conn (fr : list nat) (c0 a0 : list fop) : Prop :=
  (forall f, In f fr -> f < nf /\ st_in nl f (A f) /\ st_in nl f (B f)) /\
  (forall f s, In f fr -> s < 2 -> Z.of_nat (nes f (A f) s) = (Z.of_nat (nes f (B f) s) + moves c0 a0 f s)%Z) /\ (forall z, In z (c0 ++ a0) -> In (fst z) fr) /\
  (forall z, In z c0 -> ~ In z a0) /\ (forall z, In z (c0 ++ a0) -> snd z < 2).

Lemma orbb_iff p : orbb p = true <-> orb_in nf n p.
Proof. unfold orbb, orb_in. now rewrite andb_true_iff, !Nat.ltb_lt. Qed.
Lemma tixb_ops x : tixb x = true -> Forall (okop nf n) (xops x) /\ xspins x.
Proof.
  destruct x as [s p q|b p q r u]; cbn [tixb]; rewrite !andb_true_iff, !orbb_iff, Nat.ltb_lt; unfold orb_in; intros H; (split; [|cbn; tauto]); cbn [xops]; unfold cr, an;
  repeat (apply Forall_cons; [cbn; tauto|]); apply Forall_nil.
Qed.
Lemma touch_iff fr x : touch fr x = true <-> forall f, In f (xfr x) <-> In f fr.
Proof.
  unfold touch. rewrite andb_true_iff, !forallb_forall. split.
  - intros [H1 H2] f. split; intros I; [apply H1 in I|apply H2 in I]; now apply mem_iff.
  - intros H. split; intros f I; apply mem_iff; now apply H.
Qed.
Lemma xfr_spec x : forall f, In f (xfr x) <-> exists z, In z (xcre x ++ xann x) /\ fst z = f.
Proof.
  intros f. unfold xfr. destruct x as [s p q|b p q r u]; cbn [xops map opfrag cr an fst snd xcre xann app].
  - split; [intros [<-|[<-|[]]]; [exists (fst p, s)|exists (fst q, s)]; cbn; auto|]. intros (z & H & <-). destruct H as [<-|[<-|[]]]; cbn; auto.
  - split; [intros [<-|[<-|[<-|[<-|[]]]]]; [exists (fst p, b / 2)|exists (fst r, b mod 2)|exists (fst u, b mod 2)|exists (fst q, b / 2)]; cbn [fst In]; auto 6|]. intros (z & H & <-). destruct H as [<-|[<-|[<-|[<-|[]]]]]; cbn [fst In]; auto 6.
Qed.
Lemma times_in z l : ~ In z l -> times z l = 0%Z.
Proof. intros H. rewrite times_count. now rewrite (proj1 (count_occ_not_In fop_dec l z) H). Qed.
(** nothing is written where the operators do not fit the electron numbers *)
Lemma mismatch fr c0 a0 x : conn fr c0 a0 -> tixb x = true -> touch fr x = true ->
  (exists e e', Permutation (xcre x) (c0 ++ e) /\ Permutation (xann x) (a0 ++ e') /\ Permutation e e') \/ Lx fr x = s0.
Proof.
  intros (Hst & Hc & Hin & Hdj & Hs) Tx Tt. destruct (tixb_ops x Tx) as [Fo Sx]. rewrite touch_iff in Tt.
  assert (D : {Forall (fun f => Forall (fun s => Z.of_nat (nes f (A f) s) = Z.of_nat (nes f (B f) s) + gain f (down s) (xops x))%Z [0; 1]) fr} + {~ Forall (fun f => Forall (fun s => Z.of_nat (nes f (A f) s) = Z.of_nat (nes f (B f) s) + gain f (down s) (xops x))%Z [0; 1]) fr}).
  { apply Forall_dec. intros f. apply Forall_dec. intros s. apply Z.eq_dec. }
  destruct D as [D|D]; [left|right].
  - rewrite Forall_forall in D. apply balance; [|exact Hdj]. intros [f s]. destruct (in_dec Nat.eq_dec f fr) as [I|I].
    + destruct (le_lt_dec 2 s) as [L|L].
      * rewrite !times_in; [reflexivity|..].
        -- intros J. specialize (Hs (f, s) ltac:(apply in_or_app; now right)). cbn in Hs. lia.
        -- intros J. specialize (Hs (f, s) ltac:(apply in_or_app; now left)). cbn in Hs. lia.
        -- intros J. apply xspin_lt with (z := (f, s)) in Sx; [cbn in Sx; lia|apply in_or_app; now right].
        -- intros J. apply xspin_lt with (z := (f, s)) in Sx; [cbn in Sx; lia|apply in_or_app; now left].
      * specialize (D f I). rewrite Forall_forall in D. specialize (D s ltac:(destruct s as [|[|]]; [now left|right; now left|lia])). specialize (Hc f s I L). rewrite gain_moves in D by assumption. unfold moves in *. lia.
    + rewrite !times_in; [reflexivity|..].
      * intros J. apply I. apply (Hin (f, s)). apply in_or_app. now right.
      * intros J. apply I. apply (Hin (f, s)). apply in_or_app. now left.
      * intros J. apply I. apply Tt, xfr_spec. exists (f, s). split; [apply in_or_app; now right|reflexivity].
      * intros J. apply I. apply Tt, xfr_spec. exists (f, s). split; [apply in_or_app; now left|reflexivity].
  - apply neg_Forall_Exists_neg in D; [|intros f; apply Forall_dec; intros s; apply Z.eq_dec]. apply Exists_exists in D as (f & If & Df). destruct (Hst f If) as (Lf & SA & SB).
    apply (Lel_zero K nf n V ne nl Hne fr _ _ (xops x) f); auto. intros E. apply Df. injection E as E1 E2. repeat constructor; unfold nes; cbn [Nat.eqb]; [exact E1|exact E2].
Qed.

(** ** the fragment matrices *)
Lemma loc_st fr c0 a0 f : conn fr c0 a0 -> In f fr -> f < nf /\ st_in nl f (A f) /\ st_in nl f (B f).
Proof. intros H. apply H. Qed.
Ltac okats := repeat (apply Forall_cons; [split; [reflexivity|assumption]|]); apply Forall_nil.
Lemma get_h f s : f < nf -> st_in nl f (A f) -> st_in nl f (B f) -> s < 2 -> fewer ne f (A f) (B f) (1 - s) s ->
  exists T, get_1_h ints uroot f bra ket s = Ok T /\ forall p, p < n f -> T [p] = el f (A f) (B f) [an s (f, p)].
Proof. intros Hf SA SB Hs Hd. destruct (ex_h _ _ _ _ _ _ _ (Hex f Hf) s (A f) (B f) Hs SA SB Hd) as (T & E & Q). exists T. split; [|exact Q]. unfold get_1_h. now rewrite E. Qed.
Lemma get_p f s : f < nf -> st_in nl f (A f) -> st_in nl f (B f) -> s < 2 -> fewer ne f (B f) (A f) (1 - s) s ->
  exists T, get_1_p ints uroot f bra ket s = Ok T /\ forall p, p < n f -> T [p] = el f (A f) (B f) [cr s (f, p)].
Proof.
  intros Hf SA SB Hs Hd. destruct (ex_h _ _ _ _ _ _ _ (Hex f Hf) s (B f) (A f) Hs SB SA Hd) as (T & E & Q). exists (aconj T). split; [unfold get_1_p; now rewrite E|].
  intros p Hp. unfold aconj. rewrite Q by exact Hp. rewrite el_conj by okats. reflexivity.
Qed.
Lemma get_hh f c : f < nf -> st_in nl f (A f) -> st_in nl f (B f) -> c < 3 -> fewer ne f (A f) (B f) (2 - c) c ->
  exists T, get_1_hh ints uroot f bra ket c = Ok T /\ forall p q, p < n f -> q < n f -> T [p; q] = el f (A f) (B f) [an (c - c / 2) (f, p); an (c / 2) (f, q)].
Proof. intros Hf SA SB Hs Hd. destruct (ex_hh _ _ _ _ _ _ _ (Hex f Hf) c (A f) (B f) Hs SA SB Hd) as (T & E & Q). exists T. split; [|exact Q]. unfold get_1_hh. now rewrite E. Qed.
Lemma get_pp f c : f < nf -> st_in nl f (A f) -> st_in nl f (B f) -> c < 3 -> fewer ne f (B f) (A f) (2 - c) c ->
  exists T, get_1_pp ints uroot f bra ket c = Ok T /\ forall p q, p < n f -> q < n f -> T [p; q] = el f (A f) (B f) [cr (c / 2) (f, p); cr (c - c / 2) (f, q)].
Proof.
  intros Hf SA SB Hs Hd. destruct (ex_hh _ _ _ _ _ _ _ (Hex f Hf) c (B f) (A f) Hs SB SA Hd) as (T & E & Q). exists (tpose [1; 0] (aconj T)). split; [unfold get_1_pp; now rewrite E|].
  intros p q Hp Hq. change (tpose [1; 0] (aconj T) [p; q]) with (sconj (T [q; p])). rewrite Q by assumption. rewrite el_conj by okats. reflexivity.
Qed.
Lemma get_phh f s : f < nf -> st_in nl f (A f) -> st_in nl f (B f) -> s < 2 -> fewer ne f (A f) (B f) (1 - s) s ->
  exists T, get_1_phh ints uroot f bra ket s = Ok T /\ forall t p q h, t < 2 -> p < n f -> q < n f -> h < n f -> T [t; p; q; h] = el f (A f) (B f) [cr t (f, p); an t (f, q); an s (f, h)].
Proof.
  intros Hf SA SB Hs Hd. destruct (ex_phh _ _ _ _ _ _ _ (Hex f Hf) s (A f) (B f) Hs SA SB Hd) as (T & E & Q). eexists. split; [unfold get_1_phh; rewrite E; reflexivity|].
  intros t p q h Ht Hp Hq Hh. change (T [t; h; p; q] = el f (A f) (B f) [cr t (f, p); an t (f, q); an s (f, h)]). now apply Q.
Qed.
Lemma get_pph f s : f < nf -> st_in nl f (A f) -> st_in nl f (B f) -> s < 2 -> fewer ne f (B f) (A f) (1 - s) s ->
  exists T, get_1_pph ints uroot f bra ket s = Ok T /\ forall t h p q, t < 2 -> h < n f -> p < n f -> q < n f -> T [t; h; p; q] = el f (A f) (B f) [cr s (f, h); cr t (f, p); an t (f, q)].
Proof.
  intros Hf SA SB Hs Hd. destruct (ex_phh _ _ _ _ _ _ _ (Hex f Hf) s (B f) (A f) Hs SB SA Hd) as (T & E & Q). eexists. split; [unfold get_1_pph; rewrite E; reflexivity|].
  intros t h p q Ht Hh Hp Hq. change (sconj (T [t; h; q; p]) = el f (A f) (B f) [cr s (f, h); cr t (f, p); an t (f, q)]). rewrite Q by assumption. rewrite el_conj by okats. reflexivity.
Qed.
Lemma get_sm f : f < nf -> st_in nl f (A f) -> st_in nl f (B f) -> fst (ne f (fst (B f))) = fst (ne f (fst (A f))) + 1 -> snd (ne f (fst (A f))) = snd (ne f (fst (B f))) + 1 ->
  exists T, get_1_sm ints uroot f bra ket = Ok T /\ forall p q, p < n f -> q < n f -> T [p; q] = el f (A f) (B f) [cr 1 (f, p); an 0 (f, q)].
Proof. intros Hf SA SB H1 H2. destruct (ex_sm _ _ _ _ _ _ _ (Hex f Hf) (A f) (B f) SA SB H1 H2) as (T & E & Q). exists T. split; [|exact Q]. unfold get_1_sm. now rewrite E. Qed.
Lemma get_sp f : f < nf -> st_in nl f (A f) -> st_in nl f (B f) -> fst (ne f (fst (A f))) = fst (ne f (fst (B f))) + 1 -> snd (ne f (fst (B f))) = snd (ne f (fst (A f))) + 1 ->
  exists T, get_1_sp ints uroot f bra ket = Ok T /\ forall p q, p < n f -> q < n f -> T [p; q] = el f (A f) (B f) [cr 0 (f, p); an 1 (f, q)].
Proof.
  intros Hf SA SB H1 H2. destruct (ex_sm _ _ _ _ _ _ _ (Hex f Hf) (B f) (A f) SB SA H1 H2) as (T & E & Q). eexists. split; [unfold get_1_sp; rewrite E; reflexivity|].
  intros p q Hp Hq. change (sconj (T [q; p]) = el f (A f) (B f) [cr 0 (f, p); an 1 (f, q)]). rewrite Q by assumption. rewrite el_conj by okats. reflexivity.
Qed.
Lemma get_dm1 f : f < nf -> st_in nl f (A f) -> st_in nl f (B f) -> ne f (fst (A f)) = ne f (fst (B f)) ->
  exists T, get_1_dm1 ints uroot f bra ket = Ok T /\ forall s p q, s < 2 -> p < n f -> q < n f -> T [s; p; q] = el f (A f) (B f) (xops (X1 s (f, p) (f, q))).
Proof.
  intros Hf SA SB H. unfold get_1_dm1. destruct (Nat.ltb_spec (uroot f (fst bra)) (uroot f (fst ket))) as [L|L].
  - destruct (ex_dm1 _ _ _ _ _ _ _ (Hex f Hf) (B f) (A f) SB SA) as (T & E & Q); [cbn [loc fst]; lia|now symmetry|]. rewrite E. eexists. split; [reflexivity|].
    intros s p q Hs Hp Hq. change (sconj (T [s; q; p]) = el f (A f) (B f) (xops (X1 s (f, p) (f, q)))). rewrite Q by assumption. cbn [xops]. rewrite el_conj by okats. reflexivity.
  - destruct (ex_dm1 _ _ _ _ _ _ _ (Hex f Hf) (A f) (B f) SA SB) as (T & E & Q); [exact L|exact H|]. rewrite E. exists T. split; [reflexivity|exact Q].
Qed.
Lemma get_dm2 f : f < nf -> st_in nl f (A f) -> st_in nl f (B f) -> ne f (fst (A f)) = ne f (fst (B f)) ->
  exists T, get_1_dm2 ints uroot f bra ket = Ok T /\ forall c p q r u, c < 4 -> p < n f -> q < n f -> r < n f -> u < n f -> T [c; p; q; r; u] = el f (A f) (B f) (xops (X2 c (f, p) (f, q) (f, r) (f, u))).
Proof.
  intros Hf SA SB H. unfold get_1_dm2. destruct (Nat.ltb_spec (uroot f (fst bra)) (uroot f (fst ket))) as [L|L].
  - destruct (ex_dm2 _ _ _ _ _ _ _ (Hex f Hf) (B f) (A f) SB SA) as (T & E & Q); [cbn [loc fst]; lia|now symmetry|]. rewrite E. eexists. split; [reflexivity|].
    intros c p q r u Hc Hp Hq Hr Hu. change (sconj (T [c; q; p; u; r]) = el f (A f) (B f) (xops (X2 c (f, p) (f, q) (f, r) (f, u)))). rewrite Q by assumption. cbn [xops]. rewrite el_conj by okats. reflexivity.
  - destruct (ex_dm2 _ _ _ _ _ _ _ (Hex f Hf) (A f) (B f) SA SB) as (T & E & Q); [exact L|exact H|]. rewrite E. exists T. split; [reflexivity|exact Q].
Qed.

(** ** the assignments *)
Definition pat (f1 f2 f3 f4 : nat) (p q r u : nat * nat) : bool := ofrag n f1 p && ofrag n f2 q && ofrag n f3 r && ofrag n f4 u.
Definition inb (b : nat) (bs : list nat) : bool := match index_of b bs with Some _ => true | None => false end.
Lemma ofrag_iff f p : ofrag n f p = true <-> fst p = f /\ snd p < n f.
Proof. unfold ofrag. now rewrite andb_true_iff, Nat.eqb_eq, Nat.ltb_lt. Qed.
Lemma pat_iff f1 f2 f3 f4 p q r u : pat f1 f2 f3 f4 p q r u = true <->
  (fst p = f1 /\ snd p < n f1) /\ (fst q = f2 /\ snd q < n f2) /\ (fst r = f3 /\ snd r < n f3) /\ (fst u = f4 /\ snd u < n f4).
Proof. unfold pat. rewrite !andb_true_iff, !ofrag_iff. tauto. Qed.
Lemma pat_frags f1 f2 f3 f4 p q r u : orb_in nf n p -> orb_in nf n q -> orb_in nf n r -> orb_in nf n u ->
  (pat f1 f2 f3 f4 p q r u = true <-> fst p = f1 /\ fst q = f2 /\ fst r = f3 /\ fst u = f4).
Proof.
  intros [_ Hp] [_ Hq] [_ Hr] [_ Hu]. rewrite pat_iff. split; [tauto|]. intros (<- & <- & <- & <-). tauto.
Qed.
Lemma set2_G bs f1 f2 f3 f4 a d b p q r u (G : K) :
  (forall k, index_of b bs = Some k -> pat f1 f2 f3 f4 p q r u = true -> a [k; snd p; snd q; snd r; snd u] = G) ->
  set2 n bs f1 f2 f3 f4 a d b p q r u = if inb b bs && pat f1 f2 f3 f4 p q r u then G else d b p q r u.
Proof.
  intros H. unfold set2, inb. fold (pat f1 f2 f3 f4 p q r u). destruct (index_of b bs) as [k|]; [|reflexivity]. cbn [andb]. destruct (pat f1 f2 f3 f4 p q r u); [|reflexivity]. now apply H.
Qed.
Lemma set2b_G b0 f1 f2 f3 f4 a d b p q r u (G : K) :
  (b = b0 -> pat f1 f2 f3 f4 p q r u = true -> a [snd p; snd q; snd r; snd u] = G) ->
  set2b n b0 f1 f2 f3 f4 a d b p q r u = if (b =? b0) && pat f1 f2 f3 f4 p q r u then G else d b p q r u.
Proof.
  intros H. unfold set2b. rewrite (set2_G _ _ _ _ _ _ _ _ _ _ _ _ G).
  - unfold inb. cbn [index_of]. now destruct (b =? b0).
  - intros k E Hp. cbn [index_of] in E. destruct (Nat.eqb_spec b b0) as [->|]; [|discriminate]. now apply H.
Qed.

(** ** exchanging the indices *)
Definition bswap (b : nat) : nat := nth b [0; 2; 1; 3] 0.
Definition okx (fr : list nat) (x : tix) : Prop := Forall (okop nf n) (xops x) /\ forall z, In z (xops x) -> In (opfrag z) fr.
Lemma ex3 fr b p q r u : b = 0 \/ b = 3 -> okx fr (X2 b p q r u) -> Lx fr (X2 b p q r u) = sopp (Lx fr (X2 b r q p u)).
Proof. intros Hb [F I]. destruct Hb as [-> | ->]; cbn [xops] in *; exact (Lel_swap K nf n V ne fr A B true _ _ [] _ F I). Qed.
Lemma ex2 fr b p q r u : b = 0 \/ b = 3 -> okx fr (X2 b p q r u) -> Lx fr (X2 b p q r u) = sopp (Lx fr (X2 b p u r q)).
Proof. intros Hb [F I]. destruct Hb as [-> | ->]; cbn [xops] in *; exact (Lel_swap K nf n V ne fr A B false _ _ [_; _] [] F I). Qed.
Lemma ex1 fr b p q r u : b < 4 -> okx fr (X2 b p q r u) -> Lx fr (X2 b p q r u) = Lx fr (X2 (bswap b) r u p q).
Proof.
  intros Hb [F I]. cbn [xops] in *. replace (bswap b / 2) with (b mod 2) by (destruct b as [|[|[|[|]]]]; try lia; reflexivity). replace (bswap b mod 2) with (b / 2) by (destruct b as [|[|[|[|]]]]; try lia; reflexivity).
  assert (F' : Forall (okop nf n) [cr (b mod 2) r; cr (b / 2) p; an (b mod 2) u; an (b / 2) q]) by (rewrite !Forall_cons_iff in *; tauto).
  assert (I' : forall z, In z [cr (b mod 2) r; cr (b / 2) p; an (b mod 2) u; an (b / 2) q] -> In (opfrag z) fr) by (intros z Hz; apply I; cbn [In] in *; tauto).
  pose proof (Lel_swap K nf n V ne fr A B true _ _ [] _ F I) as E1. pose proof (Lel_swap K nf n V ne fr A B false _ _ [cr (b mod 2) r; cr (b / 2) p] [] F' I') as E2. cbn [app] in E1, E2.
  change (Lel K nf n V ne fr A B [cr (b / 2) p; cr (b mod 2) r; an (b mod 2) u; an (b / 2) q] = sopp (Lel K nf n V ne fr A B [cr (b mod 2) r; cr (b / 2) p; an (b mod 2) u; an (b / 2) q])) in E1.
  change (Lel K nf n V ne fr A B [cr (b mod 2) r; cr (b / 2) p; an (b mod 2) u; an (b / 2) q] = sopp (Lel K nf n V ne fr A B [cr (b mod 2) r; cr (b / 2) p; an (b / 2) q; an (b mod 2) u])) in E2.
  rewrite E1, E2. ring.
Qed.

(** ** signs *)
Lemma Lx_on fr l ops : NoDup l -> (forall f, In f l <-> In f fr) -> (forall f, In f fr -> f < nf) ->
  Lel K nf n V ne fr A B ops = sg K (rsign nf (fun f => mem f fr) pB (map opfrag ops)) (bprod K l (fun f => el f (A f) (B f) (at_frag f ops))).
Proof. intros D S L. unfold Lel. apply (f_equal (sg K _)). apply (bprod_perm K). now apply (sel_perm K nf n V ne). Qed.
Lemma fr8 fr : (forall f, In f fr -> f < nf) -> Forall (fun f => f < 8) fr /\ Forall (fun f => f < nf) fr.
Proof. intros H. split; apply Forall_forall; intros f If; specialize (H f If); lia. Qed.
Lemma des_bra fr f : (forall f, In f fr -> f < nf) -> In f fr -> des nelec_rf bra fr f = Ok (abv nf (fun g => mem g fr) pA f).
Proof. intros H I. destruct (fr8 fr H). unfold des. rewrite Hbra. now apply (des_shuffle_abv nf (tot (fst bra))). Qed.
Lemma des_ket fr f : (forall f, In f fr -> f < nf) -> In f fr -> des nelec_rf ket fr f = Ok (abv nf (fun g => mem g fr) pB f).
Proof. intros H I. destruct (fr8 fr H). unfold des. rewrite Hket. now apply (des_shuffle_abv nf (tot (fst ket))). Qed.
Lemma pA_moved fr c0 a0 x : conn fr c0 a0 -> xspins x -> (forall f s, moves (xcre x) (xann x) f s = moves c0 a0 f s) ->
  forall f, In f fr -> pA f = moved pB (xfr x) f.
Proof.
  intros (_ & Hc & _) Sx M f If. unfold moved, xfr. rewrite <- gain_parity. change false with (down 0). change true with (down 1). rewrite !gain_moves by (assumption || lia). rewrite !M.
  pose proof (Hc f 0 If ltac:(lia)) as H0. pose proof (Hc f 1 If ltac:(lia)) as H1. unfold nes in H0, H1. cbn [Nat.eqb] in H0, H1. unfold pb.
  assert (Q : forall k, Nat.odd k = Z.odd (Z.of_nat k)) by (intros k; rewrite <- Z.negb_even, <- Nat.negb_even; f_equal; apply eq_true_iff_eq; rewrite Nat.even_spec, Z.even_spec; split; [intros [m ->]; exists (Z.of_nat m); lia|intros [m Hm]; exists (Z.to_nat m); lia]).
  rewrite !Q, <- Z.odd_add. f_equal. lia.
Qed.
Lemma abvA fr c0 a0 x f : conn fr c0 a0 -> xspins x -> (forall f s, moves (xcre x) (xann x) f s = moves c0 a0 f s) -> (forall g, In g (xfr x) -> In g fr) ->
  abv nf (fun g => mem g fr) pA f = xorb (abv nf (fun g => mem g fr) pB f) (parity (Nat.ltb f) (xfr x)).
Proof.
  intros C Sx M I. rewrite (abv_ext nf (fun g => mem g fr) pA (moved pB (xfr x))).
  - apply abv_moved. intros g Hg. split; [apply mem_iff; auto|]. apply C; auto.
  - intros g Lg Pg. apply mem_iff in Pg. exact (pA_moved fr c0 a0 x C Sx M g Pg).
Qed.

(** ** a row from its assignments *)
Lemma row_intro fr c0 a0 r d1 d2 (C1 : nat -> nat * nat -> nat * nat -> bool) (C2 : nat -> nat * nat -> nat * nat -> nat * nat -> nat * nat -> bool) :
  conn fr c0 a0 -> r = Ok (dens d1 d2) ->
  (forall s p q, d1 s p q = if C1 s p q then Lx fr (X1 s p q) else s0) ->
  (forall b p q r u, d2 b p q r u = if C2 b p q r u then Lx fr (X2 b p q r u) else s0) ->
  (forall s p q, C1 s p q = true -> s < 2 /\ orb_in nf n p /\ orb_in nf n q /\ forall f, In f [fst p; fst q] <-> In f fr) ->
  (forall b p q r u, C2 b p q r u = true -> b < 4 /\ orb_in nf n p /\ orb_in nf n q /\ orb_in nf n r /\ orb_in nf n u /\ forall f, In f [fst p; fst r; fst u; fst q] <-> In f fr) ->
  (forall s p q e e', s < 2 -> orb_in nf n p -> orb_in nf n q -> (forall f, In f [fst p; fst q] <-> In f fr) ->
     Permutation [(fst p, s)] (c0 ++ e) -> Permutation [(fst q, s)] (a0 ++ e') -> Permutation e e' -> C1 s p q = true) ->
  (forall b p q r u e e', b < 4 -> orb_in nf n p -> orb_in nf n q -> orb_in nf n r -> orb_in nf n u -> (forall f, In f [fst p; fst r; fst u; fst q] <-> In f fr) ->
     Permutation [(fst p, b / 2); (fst r, b mod 2)] (c0 ++ e) -> Permutation [(fst u, b mod 2); (fst q, b / 2)] (a0 ++ e') -> Permutation e e' -> C2 b p q r u = true) ->
  row_is fr r.
Proof.
  intros C -> H1 H2 T1 T2 M1 M2. eexists. split; [reflexivity|]. intros [s p q|b p q r u]; cbn [dens].
  - rewrite H1. destruct (C1 s p q) eqn:E.
    + destruct (T1 s p q E) as (Hs & Hp & Hq & Hf). replace (tixb (X1 s p q)) with true by (symmetry; cbn [tixb]; rewrite !andb_true_iff, !orbb_iff, Nat.ltb_lt; tauto). cbn [andb].
      replace (touch fr (X1 s p q)) with true; [reflexivity|]. symmetry. apply touch_iff. exact Hf.
    + destruct (tixb (X1 s p q)) eqn:Et; [|reflexivity]. destruct (touch fr (X1 s p q)) eqn:Eh; [|reflexivity]. cbn [andb]. symmetry.
      destruct (mismatch fr c0 a0 _ C Et Eh) as [(e & e' & P1 & P2 & P3)|Z]; [|exact Z]. exfalso. cbn [tixb] in Et. rewrite !andb_true_iff, !orbb_iff, Nat.ltb_lt in Et. rewrite touch_iff in Eh.
      rewrite (M1 s p q e e') in E; [discriminate|tauto|tauto|tauto|exact Eh|exact P1|exact P2|exact P3].
  - rewrite H2. destruct (C2 b p q r u) eqn:E.
    + destruct (T2 b p q r u E) as (Hs & Hp & Hq & Hr & Hu & Hf). replace (tixb (X2 b p q r u)) with true by (symmetry; cbn [tixb]; rewrite !andb_true_iff, !orbb_iff, Nat.ltb_lt; tauto). cbn [andb].
      replace (touch fr (X2 b p q r u)) with true; [reflexivity|]. symmetry. apply touch_iff. exact Hf.
    + destruct (tixb (X2 b p q r u)) eqn:Et; [|reflexivity]. destruct (touch fr (X2 b p q r u)) eqn:Eh; [|reflexivity]. cbn [andb]. symmetry.
      destruct (mismatch fr c0 a0 _ C Et Eh) as [(e & e' & P1 & P2 & P3)|Z]; [|exact Z]. exfalso. cbn [tixb] in Et. rewrite !andb_true_iff, !orbb_iff, Nat.ltb_lt in Et. rewrite touch_iff in Eh.
      rewrite (M2 b p q r u e e') in E; [discriminate|tauto|tauto|tauto|tauto|tauto|exact Eh|exact P1|exact P2|exact P3].
Qed.

(** ** densities *)
Lemma same_ne fr c0 a0 f : conn fr c0 a0 -> In f fr -> moves c0 a0 f 0 = 0%Z -> moves c0 a0 f 1 = 0%Z -> ne f (fst (A f)) = ne f (fst (B f)).
Proof.
  intros (_ & Hc & _) If M0 M1. pose proof (Hc f 0 If ltac:(lia)) as H0. pose proof (Hc f 1 If ltac:(lia)) as H1. unfold nes in H0, H1. cbn [Nat.eqb] in H0, H1. rewrite M0 in H0. rewrite M1 in H1.
  rewrite (surjective_pairing (ne f (fst (A f)))), (surjective_pairing (ne f (fst (B f)))). f_equal; lia.
Qed.
Lemma ltb_neg i j : i <> j -> (j <? i) = negb (i <? j).
Proof. intros H. destruct (Nat.ltb_spec j i), (Nat.ltb_spec i j); try lia; reflexivity. Qed.
Ltac xcbn := cbn [xfr xops map opfrag cr an fst snd rsign] in *.
Ltac par := rewrite ?parity_cons; repeat match goal with |- context [parity ?p (@nil nat)] => change (parity p (@nil nat)) with false end; rewrite ?Nat.ltb_irrefl.
Ltac atf := unfold at_frag; cbn [filter opfrag xops cr an fst snd];
  repeat (rewrite ?Nat.eqb_refl; match goal with |- context [?a =? ?b] => replace (a =? b) with false by (symmetry; apply Nat.eqb_neq; congruence) end); rewrite ?Nat.eqb_refl.
Lemma can_1_1 i s p q : i < nf -> Lx [i] (X1 s (i, p) (i, q)) = el i (A i) (B i) (xops (X1 s (i, p) (i, q))).
Proof.
  intros Hi. rewrite (Lx_on [i] [i]) by (first [tauto | repeat constructor; cbn; tauto | intros f [<-|[]]; exact Hi]). xcbn. par.
  match goal with |- sg K ?b _ = _ => replace b with false by btauto end. cbn [sg bprod fold_right]. atf. ring.
Qed.
Lemma can_1_2 i b p q r u : i < nf -> Lx [i] (X2 b (i, p) (i, q) (i, r) (i, u)) = el i (A i) (B i) (xops (X2 b (i, p) (i, q) (i, r) (i, u))).
Proof.
  intros Hi. rewrite (Lx_on [i] [i]) by (first [tauto | repeat constructor; cbn; tauto | intros f [<-|[]]; exact Hi]). xcbn. par.
  match goal with |- sg K ?b _ = _ => replace b with false by btauto end. cbn [sg bprod fold_right]. atf. ring.
Qed.
Lemma row_1d i : conn [i] [] [] -> row_is [i] (crunch_1d n ints uroot bra ket i).
Proof.
  intros C. destruct (loc_st _ _ _ i C ltac:(now left)) as (Li & SA & SB). pose proof (same_ne _ _ _ i C ltac:(now left) eq_refl eq_refl) as E.
  destruct (get_dm1 i Li SA SB E) as (T1 & G1 & V1). destruct (get_dm2 i Li SA SB E) as (T2 & G2 & V2).
  apply (row_intro [i] [] [] _ (set1 n [0; 1] i i T1 z1) (set2 n [0; 1; 2; 3] i i i i T2 z2) (fun s p q => (s <? 2) && ofrag n i p && ofrag n i q) (fun b p q r u => (b <? 4) && pat i i i i p q r u) C).
  - unfold crunch_1d. rewrite G1. cbn [bind]. now rewrite G2.
  - intros s [fp p] [fq q]. unfold set1. destruct s as [|[|s]]; cbn [index_of Nat.eqb option_map Nat.ltb Nat.leb andb]; [| |reflexivity].
    all: destruct (ofrag n i (fp, p) && ofrag n i (fq, q)) eqn:Eo; [|reflexivity]; rewrite andb_true_iff, !ofrag_iff in Eo; cbn [fst snd] in *; destruct Eo as [[-> Hp] [-> Hq]]; rewrite can_1_1 by exact Li; apply V1; auto; lia.
  - intros b [fp p] [fq q] [f3 r] [f4 u]. rewrite (set2_G _ _ _ _ _ _ _ _ _ _ _ _ (Lx [i] (X2 b (fp, p) (fq, q) (f3, r) (f4, u)))).
    + destruct b as [|[|[|[|]]]]; reflexivity.
    + intros k Ek Ep. assert (k = b /\ b < 4) as [-> Hb]. { destruct b as [|[|[|[|]]]]; cbn in Ek; try discriminate; injection Ek as <-; split; auto; lia. }
      apply pat_iff in Ep. cbn [fst snd] in Ep |- *. destruct Ep as ([-> Hp] & [-> Hq] & [-> Hr] & [-> Hu]). rewrite can_1_2 by exact Li. now apply V2.
  - intros s p q H. rewrite !andb_true_iff, Nat.ltb_lt, !ofrag_iff in H. destruct H as [[Hs [Ep Hp]] [Eq Hq]]. unfold orb_in. rewrite Ep, Eq. cbn [In]. intuition.
  - intros b p q r u H. rewrite andb_true_iff, Nat.ltb_lt, pat_iff in H. destruct H as (Hb & [Ep Hp] & [Eq Hq] & [Er Hr] & [Eu Hu]). unfold orb_in. rewrite Ep, Eq, Er, Eu. cbn [In]. intuition.
  - intros s p q e e' Hs [Lp Hp] [Lq Hq] Hf _ _ _. assert (fst p = i) as Ep by (destruct (proj1 (Hf (fst p))) as [|[]]; auto; cbn; tauto). assert (fst q = i) as Eq by (destruct (proj1 (Hf (fst q))) as [|[]]; auto; cbn; tauto).
    rewrite Ep in *. rewrite Eq in *. rewrite !andb_true_iff, Nat.ltb_lt, !ofrag_iff. tauto.
  - intros b p q r u e e' Hb [Lp Hp] [Lq Hq] [Lr Hr] [Lu Hu] Hf _ _ _.
    assert (forall f, In f [fst p; fst r; fst u; fst q] -> f = i) as Z by (intros f J; apply Hf in J; destruct J as [<-|[]]; reflexivity).
    rewrite (Z (fst p)), (Z (fst q)), (Z (fst r)), (Z (fst u)) in * by (cbn; tauto). rewrite andb_true_iff, Nat.ltb_lt, pat_iff. rewrite (Z (fst p)), (Z (fst q)), (Z (fst r)), (Z (fst u)) by (cbn; tauto). tauto.
Qed.

Ltac okxt := split; [cbn [xops]; unfold cr, an; repeat (apply Forall_cons; [cbn [okop fst snd]; split; assumption|]); apply Forall_nil
  | let z := fresh in let J := fresh in intros z J; cbn [xops In] in J; unfold cr, an in J; repeat (destruct J as [J|J]; [subst z; cbn [opfrag fst snd]; cbn [In]; auto 6|]); destruct J].
Ltac arrs := lazy [tpose axis index_of map nth seq length Nat.eqb option_map pick hd tl fmul sub Nat.mul Nat.add Nat.sub].
Ltac dpat H := apply pat_iff in H; cbn [fst snd] in H |- *; destruct H as ([-> ?] & [-> ?] & [-> ?] & [-> ?]).
Ltac pk := match goal with |- _ \/ _ => first [solve [left; repeat split; congruence] | solve [right; pk] | solve [left; pk]] | _ => solve [repeat split; congruence] end.
Ltac pkr := match goal with |- _ \/ _ => first [solve [left; repeat split; reflexivity] | solve [right; pkr] | solve [left; pkr]] | _ => solve [repeat split; reflexivity] end.
Ltac four b := destruct b as [|[|[|[|b]]]]; [| | | |try lia].
Lemma can_2d i j b p q r u : i < nf -> j < nf -> i <> j -> b < 4 ->
  Lx [i; j] (X2 b (i, p) (i, q) (j, r) (j, u)) = smul (el i (A i) (B i) (xops (X1 (b / 2) (i, p) (i, q)))) (el j (A j) (B j) (xops (X1 (b mod 2) (j, r) (j, u)))).
Proof.
  intros Hi Hj N Hb. rewrite (Lx_on [i; j] [i; j]).
  - xcbn. par. rewrite (ltb_neg i j N). match goal with |- sg K ?b _ = _ => replace b with false by btauto end. cbn [sg bprod fold_right]. atf. ring.
  - constructor; [intros [|[]]; congruence|]. repeat constructor. intros [].
  - tauto.
  - intros f [<-|[<-|[]]]; assumption.
Qed.
Lemma row_2d i j : i <> j -> conn [i; j] [] [] -> row_is [i; j] (crunch_2d n ints uroot bra ket i j).
Proof.
  intros N C. destruct (loc_st _ _ _ i C ltac:(now left)) as (Li & SA & SB). destruct (loc_st _ _ _ j C ltac:(right; now left)) as (Lj & SA' & SB').
  pose proof (same_ne _ _ _ i C ltac:(now left) eq_refl eq_refl) as Ei. pose proof (same_ne _ _ _ j C ltac:(right; now left) eq_refl eq_refl) as Ej.
  destruct (get_dm1 i Li SA SB Ei) as (T1 & G1 & V1). destruct (get_dm1 j Lj SA' SB' Ej) as (T2 & G2 & V2).
  pose (a := join2 (tpose [0; 3; 1; 2; 4; 5] (outer 3 T1 T2))).
  assert (Ha : forall b p q r u, b < 4 -> p < n i -> q < n i -> r < n j -> u < n j -> a [b; p; q; r; u] = Lx [i; j] (X2 b (i, p) (i, q) (j, r) (j, u))).
  { intros b p q r u Hb Hp Hq Hr Hu. rewrite can_2d by assumption. assert (Q : b / 2 < 2 /\ b mod 2 < 2) by (four b; cbn; lia). rewrite <- V1, <- V2 by tauto. reflexivity. }
  eapply (row_intro [i; j] [] [] _ _ _ (fun _ _ _ => false) (fun b p q r u => (inb b [0; 3] && pat j i i j p q r u) || ((inb b [0; 3] && pat i j j i p q r u) ||
    ((inb b [1; 2] && pat j j i i p q r u) || ((inb b [0; 3] && pat j j i i p q r u) || (inb b [0; 1; 2; 3] && pat i i j j p q r u))))) C).
  - unfold crunch_2d. rewrite G1. cbn [bind]. rewrite G2. cbn [bind]. fold a. reflexivity.
  - reflexivity.
  - intros b [fp p] [fq q] [f3 r] [f4 u]. clearbody a.
    rewrite (set2_G _ _ _ _ _ _ _ _ _ _ _ _ (Lx [i; j] (X2 b (fp, p) (fq, q) (f3, r) (f4, u)))); [rewrite (set2_G _ _ _ _ _ _ _ _ _ _ _ _ (Lx [i; j] (X2 b (fp, p) (fq, q) (f3, r) (f4, u))));
     [rewrite (set2_G _ _ _ _ _ _ _ _ _ _ _ _ (Lx [i; j] (X2 b (fp, p) (fq, q) (f3, r) (f4, u)))); [rewrite (set2_G _ _ _ _ _ _ _ _ _ _ _ _ (Lx [i; j] (X2 b (fp, p) (fq, q) (f3, r) (f4, u))));
      [rewrite (set2_G _ _ _ _ _ _ _ _ _ _ _ _ (Lx [i; j] (X2 b (fp, p) (fq, q) (f3, r) (f4, u))))|]|]|]|].
    + unfold z2. do 5 match goal with |- (if ?c then _ else _) = _ => destruct c; [reflexivity|]; cbn [orb] end. reflexivity.
    + intros k Ek Ep. dpat Ep. four b; cbn in Ek; try discriminate; injection Ek as <-; apply Ha; auto; lia.
    + intros k Ek Ep. dpat Ep. four b; cbn in Ek; try discriminate; injection Ek as <-; arrs; rewrite Ha by (assumption || lia); rewrite (ex1 [i; j] _ (i, _)) by (lia || okxt); reflexivity.
    + intros k Ek Ep. dpat Ep. four b; cbn in Ek; try discriminate; injection Ek as <-; arrs; rewrite Ha by (assumption || lia); rewrite (ex1 [i; j] _ (i, _)) by (lia || okxt); reflexivity.
    + intros k Ek Ep. dpat Ep. four b; cbn in Ek; try discriminate; injection Ek as <-; arrs; rewrite Ha by (assumption || lia); (rewrite (ex2 [i; j] _ (i, p) (j, q)); [reflexivity|tauto|okxt]).
    + intros k Ek Ep. dpat Ep. four b; cbn in Ek; try discriminate; injection Ek as <-; arrs; rewrite Ha by (assumption || lia); (rewrite (ex3 [i; j] _ (j, p) (i, q)); [reflexivity|tauto|okxt]).
  - discriminate.
  - intros b p q r u H. rewrite !orb_true_iff, !andb_true_iff, !pat_iff in H. assert (Hb : b < 4) by (four b; [lia..|]; cbn in H; intuition discriminate).
    unfold orb_in. decompose [and or] H; subst; repeat match goal with E : fst _ = fst _ |- _ => rewrite E in * end. all: repeat split; auto; cbn [In]; tauto.
  - intros s p q e e' Hs Hp Hq Hf P1 P2 P3. exfalso. cbn [app] in P1, P2. rewrite <- P3, <- P1 in P2. apply Permutation_length_1_inv in P2. injection P2 as E. apply N. 
    assert (i = fst p /\ j = fst p) as [-> ->]; [|reflexivity]. split; [destruct (proj2 (Hf i)) as [|[|[]]]|destruct (proj2 (Hf j)) as [|[|[]]]]; cbn in *; intuition congruence.
  - intros b p q r u e e' Hb Hp Hq Hr Hu Hf P1 P2 P3. cbn [app] in P1, P2. rewrite <- P3, <- P1 in P2.
    assert (Ii : In i [fst p; fst r; fst u; fst q]) by (apply Hf; now left). assert (Ij : In j [fst p; fst r; fst u; fst q]) by (apply Hf; right; now left).
    assert (Ip : In (fst p) [i; j]) by (apply Hf; cbn; auto). assert (Ir : In (fst r) [i; j]) by (apply Hf; cbn; auto).
    rewrite !orb_true_iff, !andb_true_iff, !pat_frags by assumption. apply Permutation_length_2_inv in P2. clear Hf P1 P3 Hp Hq Hr Hu.
    destruct P2 as [P2|P2]; injection P2; intros; clear P2; cbn [In] in *; destruct Ip as [Ip|[Ip|[]]], Ir as [Ir|[Ir|[]]]; four b; cbn in *; try discriminate;
    first [pk | exfalso; destruct Ii as [Ii|[Ii|[Ii|[Ii|[]]]]], Ij as [Ij|[Ij|[Ij|[Ij|[]]]]]; congruence].
Qed.

(** ** charge transfer *)
Lemma ch fr c0 a0 f : conn fr c0 a0 -> In f fr ->
  Z.of_nat (fst (ne f (fst (A f)))) = (Z.of_nat (fst (ne f (fst (B f)))) + moves c0 a0 f 0)%Z /\ Z.of_nat (snd (ne f (fst (A f)))) = (Z.of_nat (snd (ne f (fst (B f)))) + moves c0 a0 f 1)%Z.
Proof. intros (_ & Hc & _) I. split; [exact (Hc f 0 I ltac:(lia))|exact (Hc f 1 I ltac:(lia))]. Qed.
Ltac mvs H := unfold moves in H; cbn [times fst snd] in H;
  repeat (rewrite ?Nat.eqb_refl in H; match type of H with context [?a =? ?b] => replace (a =? b) with false in H by (symmetry; apply Nat.eqb_neq; congruence) end); rewrite ?Nat.eqb_refl in H; cbn in H.
Definition tdm2pat (s1 i j k b : nat) (p q r u : nat * nat) : bool :=
  ((b =? s1 * 3) && pat k j i k p q r u) || (((b =? s1 * 3) && pat i k k j p q r u) ||
  ((inb b [s1; s1 + 2] && pat k k i j p q r u) || (inb b [s1 * 2; s1 * 2 + 1] && pat i j k k p q r u))).
Lemma tdm2_spec fr s1 a i j k d2 b p q r u : s1 < 2 -> i < nf -> j < nf -> k < nf -> In i fr -> In j fr -> In k fr ->
  (forall t x y z w, t < 2 -> x < n i -> y < n j -> z < n k -> w < n k -> a [t; x; y; z; w] = Lx fr (X2 (s1 * 2 + t) (i, x) (j, y) (k, z) (k, w))) ->
  crunch_1c_tdm2 n s1 a i j k d2 b p q r u = if tdm2pat s1 i j k b p q r u then Lx fr (X2 b p q r u) else d2 b p q r u.
Proof.
  intros Hs Li Lj Lk Ii Ij Ik Ha. destruct p as [fp p], q as [fq q], r as [f3 r], u as [f4 u]. unfold crunch_1c_tdm2, tdm2pat.
  set (G := Lx fr (X2 b (fp, p) (fq, q) (f3, r) (f4, u))).
  rewrite (set2b_G _ _ _ _ _ _ _ _ _ _ _ _ G); [rewrite (set2b_G _ _ _ _ _ _ _ _ _ _ _ _ G); [rewrite (set2_G _ _ _ _ _ _ _ _ _ _ _ _ G); [rewrite (set2_G _ _ _ _ _ _ _ _ _ _ _ _ G)|]|]|]; subst G.
  - do 4 match goal with |- (if ?c then _ else _) = _ => destruct c; [reflexivity|]; cbn [orb] end. reflexivity.
  - intros kk Ek Ep. dpat Ep. destruct s1 as [|[|s1]]; [| |lia]; four b; cbn in Ek; try discriminate; injection Ek as <-; apply Ha; auto; lia.
  - intros kk Ek Ep. dpat Ep. destruct s1 as [|[|s1]]; [| |lia]; four b; cbn in Ek; try discriminate; injection Ek as <-; arrs; rewrite Ha by (assumption || lia);
    (rewrite (ex1 fr _ (k, p)); [reflexivity|lia|okxt]).
  - intros Ek Ep. dpat Ep. destruct s1 as [|[|s1]]; [| |lia]; subst b; arrs; rewrite Ha by (assumption || lia); (rewrite (ex2 fr _ (i, p) (k, q)); [reflexivity|tauto|okxt]).
  - intros Ek Ep. dpat Ep. destruct s1 as [|[|s1]]; [| |lia]; subst b; arrs; rewrite Ha by (assumption || lia); (rewrite (ex3 fr _ (k, p) (j, q)); [reflexivity|tauto|okxt]).
Qed.
Lemma tdm2pat_in fr s1 i j k b p q r u : s1 < 2 -> i < nf -> j < nf -> k < nf -> (forall f, In f [i; j; k] <-> In f fr) -> tdm2pat s1 i j k b p q r u = true ->
  b < 4 /\ orb_in nf n p /\ orb_in nf n q /\ orb_in nf n r /\ orb_in nf n u /\ forall f, In f [fst p; fst r; fst u; fst q] <-> In f fr.
Proof.
  intros Hs Li Lj Lk S H. unfold tdm2pat in H. rewrite !orb_true_iff, !andb_true_iff, !pat_iff, Nat.eqb_eq in H.
  assert (Hb : b < 4) by (destruct s1 as [|[|s1]]; [| |lia]; four b; try lia; cbn in H; intuition (discriminate || lia)).
  unfold orb_in. decompose [and or] H; clear H; (repeat match goal with E : fst _ = _ |- _ => rewrite E; clear E end); (repeat split; [assumption..|intros J; apply S; cbn [In] in *; tauto|intros J; apply S in J; cbn [In] in *; tauto]).
Qed.
Ltac nodup := repeat constructor; cbn [In]; intuition congruence.
Lemma can_1c_1 i j s p q : i < nf -> j < nf -> i <> j ->
  Lx [i; j] (X1 s (i, p) (j, q)) = sg K (xorb (xorb (abv nf (fun g => mem g [i; j]) pB i) (abv nf (fun g => mem g [i; j]) pB j)) (i <? j)) (smul (el i (A i) (B i) [cr s (i, p)]) (el j (A j) (B j) [an s (j, q)])).
Proof.
  intros Hi Hj N. rewrite (Lx_on [i; j] [i; j]) by (first [tauto | nodup | intros f [<-|[<-|[]]]; assumption]).
  xcbn. par. match goal with |- sg K ?b _ = sg K ?c _ => replace b with c by btauto end. apply (f_equal (sg K _)). cbn [bprod fold_right]. atf. ring.
Qed.
Lemma can_1c_i i j s t p q r u : i < nf -> j < nf -> i <> j -> s < 2 -> t < 2 ->
  Lx [i; j] (X2 (s * 2 + t) (i, p) (j, q) (i, r) (i, u)) = sg K (xorb (xorb (abv nf (fun g => mem g [i; j]) pB i) (abv nf (fun g => mem g [i; j]) pB j)) (i <? j))
    (smul (el i (A i) (B i) [cr s (i, p); cr t (i, r); an t (i, u)]) (el j (A j) (B j) [an s (j, q)])).
Proof.
  intros Hi Hj N Hs Ht. rewrite (Lx_on [i; j] [i; j]) by (first [tauto | nodup | intros f [<-|[<-|[]]]; assumption]).
  assert (E : (s * 2 + t) / 2 = s /\ (s * 2 + t) mod 2 = t) by (destruct s as [|[|]], t as [|[|]]; try lia; split; reflexivity). cbn [xops]. destruct E as [-> ->].
  xcbn. par. match goal with |- sg K ?b _ = sg K ?c _ => replace b with c by btauto end. apply (f_equal (sg K _)). cbn [bprod fold_right]. atf. ring.
Qed.
Lemma can_1c_j i j s t p q r u : i < nf -> j < nf -> i <> j -> s < 2 -> t < 2 ->
  Lx [i; j] (X2 (s * 2 + t) (i, p) (j, q) (j, r) (j, u)) = sg K (xorb (xorb (abv nf (fun g => mem g [i; j]) pB i) (abv nf (fun g => mem g [i; j]) pB j)) (i <? j))
    (smul (el i (A i) (B i) [cr s (i, p)]) (el j (A j) (B j) [cr t (j, r); an t (j, u); an s (j, q)])).
Proof.
  intros Hi Hj N Hs Ht. rewrite (Lx_on [i; j] [i; j]) by (first [tauto | nodup | intros f [<-|[<-|[]]]; assumption]).
  assert (E : (s * 2 + t) / 2 = s /\ (s * 2 + t) mod 2 = t) by (destruct s as [|[|]], t as [|[|]]; try lia; split; reflexivity). cbn [xops]. destruct E as [-> ->].
  xcbn. par. match goal with |- sg K ?b _ = sg K ?c _ => replace b with c by btauto end. apply (f_equal (sg K _)). cbn [bprod fold_right]. atf. ring.
Qed.
Lemma can_1c1d i j k s t p q r u : i < nf -> j < nf -> k < nf -> i <> j -> i <> k -> j <> k -> s < 2 -> t < 2 ->
  Lx [i; j; k] (X2 (s * 2 + t) (i, p) (j, q) (k, r) (k, u)) = sg K (xorb (xorb (abv nf (fun g => mem g [i; j; k]) pB i) (abv nf (fun g => mem g [i; j; k]) pB j)) (i <? j))
    (smul (smul (el i (A i) (B i) [cr s (i, p)]) (el j (A j) (B j) [an s (j, q)])) (el k (A k) (B k) (xops (X1 t (k, r) (k, u))))).
Proof.
  intros Hi Hj Hk N N1 N2 Hs Ht. rewrite (Lx_on [i; j; k] [i; j; k]) by (first [tauto | nodup | intros f [<-|[<-|[<-|[]]]]; assumption]).
  assert (E : (s * 2 + t) / 2 = s /\ (s * 2 + t) mod 2 = t) by (destruct s as [|[|]], t as [|[|]]; try lia; split; reflexivity). cbn [xops]. destruct E as [-> ->].
  xcbn. par. match goal with |- sg K ?b _ = sg K ?c _ => replace b with c by btauto end. apply (f_equal (sg K _)). cbn [bprod fold_right]. atf. ring.
Qed.
Lemma mv_1c i j s : forall f t x y, moves (xcre (X1 s (i, x) (j, y))) (xann (X1 s (i, x) (j, y))) f t = moves [(i, s)] [(j, s)] f t.
Proof. reflexivity. Qed.
Lemma row_1c i j s1 : i <> j -> s1 < 2 -> conn [i; j] [(i, s1)] [(j, s1)] -> row_is [i; j] (crunch_1c n ints uroot nelec_rf bra ket i j s1).
Proof.
  intros N Hs C. destruct (loc_st _ _ _ i C ltac:(now left)) as (Li & SA & SB). destruct (loc_st _ _ _ j C ltac:(right; now left)) as (Lj & SA' & SB').
  destruct (ch _ _ _ i C ltac:(now left)) as [M0 M1]. destruct (ch _ _ _ j C ltac:(right; now left)) as [M0' M1'].
  assert (F1 : fewer ne i (B i) (A i) (1 - s1) s1) by (mvs M0; mvs M1; unfold fewer; destruct s1 as [|[|]]; [| |lia]; cbn in *; lia).
  assert (F2 : fewer ne j (A j) (B j) (1 - s1) s1) by (mvs M0'; mvs M1'; unfold fewer; destruct s1 as [|[|]]; [| |lia]; cbn in *; lia).
  destruct (get_p i s1 Li SA SB Hs F1) as (Tp & Gp & Vp). destruct (get_h j s1 Lj SA' SB' Hs F2) as (Th & Gh & Vh).
  destruct (get_pph i s1 Li SA SB Hs F1) as (Tpph & Gpph & Vpph). destruct (get_phh j s1 Lj SA' SB' Hs F2) as (Tphh & Gphh & Vphh).
  assert (Fr : forall f, In f [i; j] -> f < nf) by (intros f [<-|[<-|[]]]; assumption).
  pose (fac := xorb (abv nf (fun g => mem g [i; j]) pA i) (abv nf (fun g => mem g [i; j]) pB j)).
  assert (Fac : fac = xorb (xorb (abv nf (fun g => mem g [i; j]) pB i) (abv nf (fun g => mem g [i; j]) pB j)) (i <? j)).
  { unfold fac. rewrite (abvA _ _ _ (X1 s1 (i, 0) (j, 0)) i C); [|exact Hs|reflexivity|cbn; intuition]. unfold xfr. xcbn. par. btauto. }
  pose (a1 := tpose [0; 1; 4; 2; 3] (fmul fac (outer 4 Tpph Th))). pose (a2 := tpose [1; 0; 4; 2; 3] (fmul fac (outer 1 Tp Tphh))).
  eapply (row_intro [i; j] _ _ _ _ _ (fun s p q => (s =? s1) && ofrag n i p && ofrag n j q) (fun b p q r u => tdm2pat s1 i j j b p q r u || tdm2pat s1 i j i b p q r u) C).
  - unfold crunch_1c. rewrite des_bra by (try exact Fr; cbn; auto). cbn [bind]. rewrite des_ket by (try exact Fr; cbn; auto). cbn [bind]. rewrite Gp, Gh. cbn [bind]. rewrite Gpph. cbn [bind]. rewrite Gphh. cbn [bind]. reflexivity.
  - fold fac. intros s [fp p] [fq q]. unfold set1b, set1. cbn [index_of]. destruct (Nat.eqb_spec s s1) as [->|]; [|reflexivity]. cbn [andb].
    destruct (ofrag n i (fp, p) && ofrag n j (fq, q)) eqn:Eo; [|reflexivity]; rewrite andb_true_iff, !ofrag_iff in Eo; cbn [fst snd] in *; destruct Eo as [[-> Hp] [-> Hq]].
    rewrite can_1c_1 by assumption. rewrite <- Fac, <- Vp, <- Vh by assumption. reflexivity.
  - fold fac. fold a1 a2. intros b p q r u.
    rewrite (tdm2_spec [i; j] s1 a2 i j j); [rewrite (tdm2_spec [i; j] s1 a1 i j i); [|try assumption; try (cbn [In]; tauto)..]|try assumption; try (cbn [In]; tauto)..].
    + unfold z2. destruct (tdm2pat s1 i j j b p q r u); [reflexivity|]. cbn [orb]. reflexivity.
    + intros t x y z w Ht Hx Hy Hz Hw. rewrite can_1c_i by assumption. rewrite <- Fac, <- Vpph, <- Vh by assumption. reflexivity.
    + intros t x y z w Ht Hx Hy Hz Hw. rewrite can_1c_j by assumption. rewrite <- Fac, <- Vphh, <- Vp by assumption. reflexivity.
  - intros s p q H. rewrite !andb_true_iff, Nat.eqb_eq, !ofrag_iff in H. destruct H as [[-> [Ep Hp]] [Eq Hq]]. unfold orb_in. rewrite Ep, Eq. tauto.
  - intros b p q r u H. apply orb_true_iff in H. destruct H as [H|H]; [apply (tdm2pat_in [i; j] s1 i j j)|apply (tdm2pat_in [i; j] s1 i j i)]; try assumption; intros f; cbn [In]; tauto.
  - intros s p q e e' Hs' [Lp Hp] [Lq Hq] Hf P1 P2 P3. apply Permutation_length_1_inv in P1, P2. injection P1; injection P2; intros; subst. rewrite !andb_true_iff, Nat.eqb_eq, !ofrag_iff. tauto.
  - intros b p q r u e e' Hb Hp Hq Hr Hu Hf P1 P2 P3. apply orb_true_iff. unfold tdm2pat. rewrite !orb_true_iff, !andb_true_iff, !pat_frags, !Nat.eqb_eq by assumption.
    assert (Ip : In (fst p) [i; j]) by (apply Hf; cbn; auto). assert (Ir : In (fst r) [i; j]) by (apply Hf; cbn; auto). clear Hp Hq Hr Hu Hf.
    apply Permutation_length_2_inv in P1, P2. cbn [app] in P1, P2. destruct p as [fp p], q as [fq q], r as [f3 r], u as [f4 u]. cbn [fst In] in *.
    destruct P1 as [P1|P1], P2 as [P2|P2]; injection P1; injection P2; clear P1 P2; intros; subst e e'; apply Permutation_length_1_inv in P3; injection P3; clear P3; intros; subst.
    all: destruct Ip as [Ip|[Ip|[]]], Ir as [Ir|[Ir|[]]]; try (exfalso; congruence); subst; four b; try discriminate; try (exfalso; congruence); cbn [inb]; pkr.
Qed.
Lemma row_1c1d i j k s1 : i <> j -> i <> k -> j <> k -> s1 < 2 -> conn [i; j; k] [(i, s1)] [(j, s1)] -> row_is [i; j; k] (crunch_1c1d n ints uroot nelec_rf bra ket i j k s1).
Proof.
  intros N N1 N2 Hs C. destruct (loc_st _ _ _ i C ltac:(cbn; auto)) as (Li & SA & SB). destruct (loc_st _ _ _ j C ltac:(cbn; auto)) as (Lj & SA' & SB'). destruct (loc_st _ _ _ k C ltac:(cbn; auto)) as (Lk & SAk & SBk).
  destruct (ch _ _ _ i C ltac:(cbn; auto)) as [M0 M1]. destruct (ch _ _ _ j C ltac:(cbn; auto)) as [M0' M1'].
  assert (F1 : fewer ne i (B i) (A i) (1 - s1) s1) by (mvs M0; mvs M1; unfold fewer; destruct s1 as [|[|]]; [| |lia]; cbn in *; lia).
  assert (F2 : fewer ne j (A j) (B j) (1 - s1) s1) by (mvs M0'; mvs M1'; unfold fewer; destruct s1 as [|[|]]; [| |lia]; cbn in *; lia).
  assert (F3 : ne k (fst (A k)) = ne k (fst (B k))). { apply (same_ne _ _ _ k C); [cbn; auto|..]; unfold moves; cbn [times fst snd]; rewrite (proj2 (Nat.eqb_neq k i)), (proj2 (Nat.eqb_neq k j)) by congruence; reflexivity. }
  destruct (get_p i s1 Li SA SB Hs F1) as (Tp & Gp & Vp). destruct (get_h j s1 Lj SA' SB' Hs F2) as (Th & Gh & Vh). destruct (get_dm1 k Lk SAk SBk F3) as (Td & Gd & Vd).
  assert (Fr : forall f, In f [i; j; k] -> f < nf) by (intros f [<-|[<-|[<-|[]]]]; assumption).
  pose (fac := xorb (abv nf (fun g => mem g [i; j; k]) pA i) (abv nf (fun g => mem g [i; j; k]) pB j)).
  assert (Fac : fac = xorb (xorb (abv nf (fun g => mem g [i; j; k]) pB i) (abv nf (fun g => mem g [i; j; k]) pB j)) (i <? j)).
  { unfold fac. rewrite (abvA _ _ _ (X1 s1 (i, 0) (j, 0)) i C); [|exact Hs|reflexivity|cbn; intuition]. unfold xfr. xcbn. par. btauto. }
  pose (a := tpose [2; 0; 1; 3; 4] (fmul fac (outer 2 (outer 1 Tp Th) Td))).
  eapply (row_intro [i; j; k] _ _ _ _ _ (fun _ _ _ => false) (fun b p q r u => tdm2pat s1 i j k b p q r u) C).
  - unfold crunch_1c1d. rewrite des_bra by (try exact Fr; cbn; auto). cbn [bind]. rewrite des_ket by (try exact Fr; cbn; auto). cbn [bind]. rewrite Gp, Gh. cbn [bind]. rewrite Gd. cbn [bind]. reflexivity.
  - reflexivity.
  - fold fac. fold a. intros b p q r u. rewrite (tdm2_spec [i; j; k] s1 a i j k); [reflexivity|try assumption; try (cbn [In]; tauto)..].
    intros t x y z w Ht Hx Hy Hz Hw. rewrite can_1c1d by assumption. rewrite <- Fac, <- Vp, <- Vh, <- Vd by assumption. reflexivity.
  - discriminate.
  - intros b p q r u H. apply (tdm2pat_in [i; j; k] s1 i j k); try assumption; intros f; cbn [In]; tauto.
  - intros s p q e e' Hs' [Lp Hp] [Lq Hq] Hf P1 P2 P3. exfalso. apply Permutation_length_1_inv in P1, P2. injection P1; injection P2; intros. destruct (proj2 (Hf k)) as [|[|[]]]; [cbn; auto|congruence|congruence].
  - intros b p q r u e e' Hb Hp Hq Hr Hu Hf P1 P2 P3. unfold tdm2pat. rewrite !orb_true_iff, !andb_true_iff, !pat_frags, !Nat.eqb_eq by assumption.
    assert (Ik : In k [fst p; fst r; fst u; fst q]) by (apply Hf; cbn; auto). clear Hp Hq Hr Hu Hf.
    apply Permutation_length_2_inv in P1, P2. cbn [app] in P1, P2. destruct p as [fp p], q as [fq q], r as [f3 r], u as [f4 u]. cbn [fst In] in *.
    destruct P1 as [P1|P1], P2 as [P2|P2]; injection P1; injection P2; clear P1 P2; intros; subst e e'; apply Permutation_length_1_inv in P3; injection P3; clear P3; intros; subst.
    all: destruct Ik as [Ik|[Ik|[Ik|[Ik|[]]]]]; try (exfalso; congruence); subst; four b; try discriminate; try (exfalso; congruence); cbn [inb]; pkr.
Qed.

(** ** spin exchange *)
Lemma can_1s i j p q r u : i < nf -> j < nf -> i <> j ->
  Lx [i; j] (X2 1 (i, p) (j, q) (j, r) (i, u)) = sopp (smul (el i (A i) (B i) [cr 0 (i, p); an 1 (i, u)]) (el j (A j) (B j) [cr 1 (j, r); an 0 (j, q)])).
Proof.
  intros Hi Hj N. rewrite (Lx_on [i; j] [i; j]) by (first [tauto | nodup | intros f [<-|[<-|[]]]; assumption]).
  change (xops (X2 1 (i, p) (j, q) (j, r) (i, u))) with [cr 0 (i, p); cr 1 (j, r); an 1 (i, u); an 0 (j, q)].
  xcbn. par. rewrite (ltb_neg i j N). match goal with |- sg K ?b _ = _ => replace b with true by btauto end. cbn [sg bprod fold_right]. atf. ring.
Qed.
Lemma row_1s i j : i <> j -> conn [i; j] [(i, 0); (j, 1)] [(i, 1); (j, 0)] -> row_is [i; j] (crunch_1s n ints uroot bra ket i j).
Proof.
  intros N C. destruct (loc_st _ _ _ i C ltac:(cbn; auto)) as (Li & SA & SB). destruct (loc_st _ _ _ j C ltac:(cbn; auto)) as (Lj & SA' & SB').
  destruct (ch _ _ _ i C ltac:(cbn; auto)) as [M0 M1]. destruct (ch _ _ _ j C ltac:(cbn; auto)) as [M0' M1']. mvs M0; mvs M1; mvs M0'; mvs M1'.
  destruct (get_sp i Li SA SB) as (Tp & Gp & Vp); [cbn in *; lia..|]. destruct (get_sm j Lj SA' SB') as (Tm & Gm & Vm); [cbn in *; lia..|].
  pose (a := fmul true (outer 2 Tp Tm)).
  assert (Ha : forall p q r u, p < n i -> q < n j -> r < n j -> u < n i -> a [p; u; r; q] = Lx [i; j] (X2 1 (i, p) (j, q) (j, r) (i, u))).
  { intros p q r u Hp Hq Hr Hu. rewrite can_1s by assumption. rewrite <- Vp, <- Vm by assumption. reflexivity. }
  eapply (row_intro [i; j] _ _ _ _ _ (fun _ _ _ => false) (fun b p q r u => ((b =? 2) && pat j i i j p q r u) || ((b =? 1) && pat i j j i p q r u)) C).
  - unfold crunch_1s. rewrite Gp, Gm. cbn [bind]. fold a. reflexivity.
  - reflexivity.
  - intros b [fp p] [fq q] [f3 r] [f4 u]. clearbody a. set (G := Lx [i; j] (X2 b (fp, p) (fq, q) (f3, r) (f4, u))).
    rewrite (set2b_G _ _ _ _ _ _ _ _ _ _ _ _ G); [rewrite (set2b_G _ _ _ _ _ _ _ _ _ _ _ _ G)|]; subst G.
    + unfold z2. do 2 match goal with |- (if ?c then _ else _) = _ => destruct c; [reflexivity|]; cbn [orb] end. reflexivity.
    + intros -> Ep. dpat Ep. arrs. now apply Ha.
    + intros -> Ep. dpat Ep. arrs. rewrite Ha by assumption. (rewrite (ex1 [i; j] 2 (j, p)); [reflexivity|lia|okxt]).
  - discriminate.
  - intros b p q r u H. rewrite orb_true_iff, !andb_true_iff, !Nat.eqb_eq, !pat_iff in H. unfold orb_in. decompose [and or] H; clear H; subst b; (repeat match goal with E : fst _ = _ |- _ => rewrite E; clear E end); (repeat split; [lia|assumption..|cbn [In]; tauto|cbn [In]; tauto]).
  - intros s p q e e' Hs' [Lp Hp] [Lq Hq] Hf P1 P2 P3. exfalso. apply Permutation_length in P1. discriminate.
  - intros b p q r u e e' Hb Hp Hq Hr Hu Hf P1 P2 P3. rewrite !orb_true_iff, !andb_true_iff, !pat_frags, !Nat.eqb_eq by assumption. clear Hp Hq Hr Hu Hf.
    apply Permutation_length_2_inv in P1, P2. cbn [app] in P1, P2. destruct p as [fp p], q as [fq q], r as [f3 r], u as [f4 u]. cbn [fst In] in *.
    destruct P1 as [P1|P1], P2 as [P2|P2]; injection P1; injection P2; clear P1 P2; intros; subst; four b; try discriminate; try (exfalso; congruence); pkr.
Qed.
Lemma can_1s1c i j k s p q r u : i < nf -> j < nf -> k < nf -> i <> j -> i <> k -> j <> k -> s < 2 ->
  Lx [i; j; k] (X2 (1 + s) (i, p) (k, q) (k, r) (j, u)) = sg K (negb (xorb (xorb (abv nf (fun g => mem g [i; j; k]) pB i) (abv nf (fun g => mem g [i; j; k]) pB j)) (i <? j)))
    (smul (smul (el i (A i) (B i) [cr s (i, p)]) (el j (A j) (B j) [an (1 - s) (j, u)])) (el k (A k) (B k) [cr (1 - s) (k, r); an s (k, q)])).
Proof.
  intros Hi Hj Hk N N1 N2 Hs. rewrite (Lx_on [i; j; k] [i; j; k]) by (first [tauto | nodup | intros f [<-|[<-|[<-|[]]]]; assumption]).
  assert (E : (1 + s) / 2 = s /\ (1 + s) mod 2 = 1 - s) by (destruct s as [|[|]]; try lia; split; reflexivity). cbn [xops]. destruct E as [-> ->].
  xcbn. par. rewrite (ltb_neg j k N2). match goal with |- sg K ?b _ = sg K ?c _ => replace b with c by btauto end. apply (f_equal (sg K _)). cbn [bprod fold_right]. atf. ring.
Qed.
Lemma row_1s1c i j k s1 : i <> j -> i <> k -> j <> k -> s1 < 2 -> conn [i; j; k] [(i, s1); (k, 1 - s1)] [(j, 1 - s1); (k, s1)] -> row_is [i; j; k] (crunch_1s1c n ints uroot nelec_rf bra ket i j k s1).
Proof.
  intros N N1 N2 Hs C. destruct (loc_st _ _ _ i C ltac:(cbn; auto)) as (Li & SA & SB). destruct (loc_st _ _ _ j C ltac:(cbn; auto)) as (Lj & SA' & SB'). destruct (loc_st _ _ _ k C ltac:(cbn; auto)) as (Lk & SAk & SBk).
  destruct (ch _ _ _ i C ltac:(cbn; auto)) as [M0 M1]. destruct (ch _ _ _ j C ltac:(cbn; auto)) as [M0' M1']. destruct (ch _ _ _ k C ltac:(cbn; auto)) as [M0k M1k]. mvs M0; mvs M1; mvs M0'; mvs M1'; mvs M0k; mvs M1k.
  assert (F1 : fewer ne i (B i) (A i) (1 - s1) s1) by (unfold fewer; destruct s1 as [|[|]]; [| |lia]; cbn in *; lia).
  assert (F2 : fewer ne j (A j) (B j) (1 - (1 - s1)) (1 - s1)) by (unfold fewer; destruct s1 as [|[|]]; [| |lia]; cbn in *; lia).
  destruct (get_p i s1 Li SA SB Hs F1) as (Tp & Gp & Vp). destruct (get_h j (1 - s1) Lj SA' SB' ltac:(lia) F2) as (Th & Gh & Vh).
  assert (exists Td, (if s1 =? 0 then get_1_sm ints uroot k bra ket else get_1_sp ints uroot k bra ket) = Ok Td /\ forall r q, r < n k -> q < n k -> Td [r; q] = el k (A k) (B k) [cr (1 - s1) (k, r); an s1 (k, q)]) as (Td & Gd & Vd).
  { destruct s1 as [|[|]]; [| |lia]; cbn [Nat.eqb Nat.sub] in *; [apply get_sm|apply get_sp]; try assumption; cbn in *; lia. }
  assert (Fr : forall f, In f [i; j; k] -> f < nf) by (intros f [<-|[<-|[<-|[]]]]; assumption).
  pose (fac := xorb true (xorb (abv nf (fun g => mem g [i; j; k]) pA i) (abv nf (fun g => mem g [i; j; k]) pB j))).
  assert (Fac : fac = negb (xorb (xorb (abv nf (fun g => mem g [i; j; k]) pB i) (abv nf (fun g => mem g [i; j; k]) pB j)) (i <? j))).
  { unfold fac. rewrite (abvA _ _ _ (X2 (1 + s1) (i, 0) (k, 0) (k, 0) (j, 0)) i C).
    - unfold xfr. xcbn. par. btauto.
    - cbn. lia.
    - intros f t. assert (E : (1 + s1) / 2 = s1 /\ (1 + s1) mod 2 = 1 - s1) by (destruct s1 as [|[|]]; try lia; split; reflexivity). cbn [xcre xann]. destruct E as [-> ->]. unfold moves. cbn [times fst snd]. lia.
    - unfold xfr. xcbn. cbn [In]. tauto. }
  pose (a := tpose [0; 3; 2; 1] (fmul fac (outer 2 (outer 1 Tp Th) Td))).
  assert (Ha : forall p q r u, p < n i -> q < n k -> r < n k -> u < n j -> a [p; q; r; u] = Lx [i; j; k] (X2 (1 + s1) (i, p) (k, q) (k, r) (j, u))).
  { intros p q r u Hp Hq Hr Hu. rewrite can_1s1c by assumption. rewrite <- Fac, <- Vp, <- Vh, <- Vd by assumption. reflexivity. }
  eapply (row_intro [i; j; k] _ _ _ _ _ (fun _ _ _ => false) (fun b p q r u => ((b =? 2 - s1) && pat k j i k p q r u) || ((b =? 1 + s1) && pat i k k j p q r u)) C).
  - unfold crunch_1s1c. rewrite des_bra by (try exact Fr; cbn; auto). cbn [bind]. rewrite des_ket by (try exact Fr; cbn; auto). cbn [bind]. rewrite Gp, Gh. cbn [bind]. rewrite Gd. cbn [bind]. reflexivity.
  - reflexivity.
  - fold fac. fold a. intros b [fp p] [fq q] [f3 r] [f4 u]. clearbody a. set (G := Lx [i; j; k] (X2 b (fp, p) (fq, q) (f3, r) (f4, u))).
    rewrite (set2b_G _ _ _ _ _ _ _ _ _ _ _ _ G); [rewrite (set2b_G _ _ _ _ _ _ _ _ _ _ _ _ G)|]; subst G.
    + unfold z2. do 2 match goal with |- (if ?c then _ else _) = _ => destruct c; [reflexivity|]; cbn [orb] end. reflexivity.
    + intros -> Ep. dpat Ep. now apply Ha.
    + intros -> Ep. dpat Ep. destruct s1 as [|[|]]; [| |lia]; arrs; rewrite Ha by assumption; (rewrite (ex1 [i; j; k] _ (k, p)); [reflexivity|lia|okxt]).
  - discriminate.
  - intros b p q r u H. rewrite orb_true_iff, !andb_true_iff, !Nat.eqb_eq, !pat_iff in H. unfold orb_in. decompose [and or] H; clear H; subst b; (repeat match goal with E : fst _ = _ |- _ => rewrite E; clear E end); (repeat split; [lia|assumption..|cbn [In]; tauto|cbn [In]; tauto]).
  - intros s p q e e' Hs' [Lp Hp] [Lq Hq] Hf P1 P2 P3. exfalso. apply Permutation_length in P1. discriminate.
  - intros b p q r u e e' Hb Hp Hq Hr Hu Hf P1 P2 P3. rewrite !orb_true_iff, !andb_true_iff, !pat_frags, !Nat.eqb_eq by assumption. clear Hp Hq Hr Hu Hf.
    apply Permutation_length_2_inv in P1, P2. cbn [app] in P1, P2. destruct p as [fp p], q as [fq q], r as [f3 r], u as [f4 u]. cbn [fst In] in *.
    destruct P1 as [P1|P1], P2 as [P2|P2]; injection P1; injection P2; clear P1 P2; intros; subst; four b; try discriminate; try (exfalso; congruence); pkr.
Qed.

(** ** two charge transfers *)
Lemma check_ok f s2lt a k : (s2lt <> 1 -> 0 < n f /\ forall x y, x < n f -> y < n f -> sadd (a [x; y]) (a [y; x]) = s0) -> check_pair n nz f s2lt a k = k.
Proof.
  intros H. unfold check_pair. destruct (Nat.eqb_spec s2lt 1) as [|Ne]; [reflexivity|]. destruct (H Ne) as [Hn Hz].
  destruct (n f) as [|m] eqn:En; [lia|]. cbn [seq forallb]. rewrite (Hz 0 0) by lia. rewrite Hnz. reflexivity.
Qed.
Definition sp1 (s2lt : nat) : nat := s2lt / 2.
Definition sp2 (s2lt : nat) : nat := s2lt - s2lt / 2.
Section TwoC.
Variables i j k l s2lt : nat.
Notation fr := [i; j; k; l].
Notation s1 := (sp1 s2lt).
Notation s2 := (sp2 s2lt).
Hypothesis N1 : i <> j. Hypothesis N2 : i <> l. Hypothesis N3 : k <> j. Hypothesis N4 : k <> l.
Hypothesis Hs : s2lt < 3.
Hypothesis C : conn fr [(i, s1); (k, s2)] [(l, s2); (j, s1)].
Notation blk := (nth s2lt [0; 1; 3] 0).
Lemma three (P : nat -> Prop) : P 0 -> P 1 -> P 2 -> P s2lt.
Proof. intros. destruct s2lt as [|[|[|]]]; auto; lia. Qed.
Lemma blk_s1 : blk / 2 = s1. Proof. apply (three (fun s => nth s [0; 1; 3] 0 / 2 = sp1 s)); reflexivity. Qed.
Lemma blk_s2 : blk mod 2 = s2. Proof. apply (three (fun s => nth s [0; 1; 3] 0 mod 2 = sp2 s)); reflexivity. Qed.
Lemma in_i : In i fr. Proof. cbn; auto. Qed.
Lemma in_j : In j fr. Proof. cbn; auto. Qed.
Lemma in_k : In k fr. Proof. cbn; auto. Qed.
Lemma in_l : In l fr. Proof. cbn; auto 6. Qed.
Lemma lt_i : i < nf. Proof. exact (proj1 (loc_st _ _ _ i C in_i)). Qed.
Lemma lt_j : j < nf. Proof. exact (proj1 (loc_st _ _ _ j C in_j)). Qed.
Lemma lt_k : k < nf. Proof. exact (proj1 (loc_st _ _ _ k C in_k)). Qed.
Lemma lt_l : l < nf. Proof. exact (proj1 (loc_st _ _ _ l C in_l)). Qed.
Lemma lt_fr f : In f fr -> f < nf. Proof. intros I. exact (proj1 (loc_st _ _ _ f C I)). Qed.
Lemma finish_2c a : (forall p q r u, p < n i -> q < n j -> r < n k -> u < n l -> a [p; q; r; u] = Lx fr (X2 blk (i, p) (j, q) (k, r) (l, u))) ->
  row_is fr (let d2 := set2b n blk i j k l a z2 in
      let d2 := set2b n (nth s2lt [0; 2; 3] 0) k l i j (tpose [2; 3; 0; 1] a) d2 in
      let d2 := if blk =? nth s2lt [0; 2; 3] 0 then
                  set2b n blk k j i l (fmul true (tpose [2; 1; 0; 3] a)) (set2b n blk i l k j (fmul true (tpose [0; 3; 2; 1] a)) d2)
                else d2 in
      Ok (dens z1 d2)).
Proof.
  intros Ha. pose proof lt_i as Li. pose proof lt_j as Lj. pose proof lt_k as Lk. pose proof lt_l as Ll. pose proof in_i as Ii. pose proof in_j as Ij. pose proof in_k as Ik. pose proof in_l as Il.
  eapply (row_intro fr _ _ _ _ _ (fun _ _ _ => false) (fun b p q r u => (negb (s2lt =? 1) && ((b =? blk) && pat k j i l p q r u)) || ((negb (s2lt =? 1) && ((b =? blk) && pat i l k j p q r u)) ||
     (((b =? nth s2lt [0; 2; 3] 0) && pat k l i j p q r u) || ((b =? blk) && pat i j k l p q r u)))) C).
  - reflexivity.
  - reflexivity.
  - intros b [fp p] [fq q] [f3 r] [f4 u]. set (G := Lx fr (X2 b (fp, p) (fq, q) (f3, r) (f4, u))).
    assert (E : set2b n (nth s2lt [0; 2; 3] 0) k l i j (tpose [2; 3; 0; 1] a) (set2b n blk i j k l a z2) b (fp, p) (fq, q) (f3, r) (f4, u) =
      if ((b =? nth s2lt [0; 2; 3] 0) && pat k l i j (fp, p) (fq, q) (f3, r) (f4, u)) || ((b =? blk) && pat i j k l (fp, p) (fq, q) (f3, r) (f4, u)) then G else s0).
    { rewrite (set2b_G _ _ _ _ _ _ _ _ _ _ _ _ G); [rewrite (set2b_G _ _ _ _ _ _ _ _ _ _ _ _ G)|]; subst G.
      - unfold z2. do 2 match goal with |- (if ?c then _ else _) = _ => destruct c; [reflexivity|]; cbn [orb] end. reflexivity.
      - intros -> Ep. dpat Ep. now apply Ha.
      - intros -> Ep. dpat Ep. arrs. rewrite Ha by assumption. rewrite (ex1 fr (nth s2lt [0; 2; 3] 0) (k, p)); [|apply (three (fun s => nth s [0; 2; 3] 0 < 4)); cbn; lia|okxt].
        replace (bswap (nth s2lt [0; 2; 3] 0)) with blk by (apply (three (fun s => nth s [0; 1; 3] 0 = bswap (nth s [0; 2; 3] 0))); reflexivity). reflexivity. }
    destruct (Nat.eqb_spec s2lt 1) as [E1|E1].
    + cbn [negb andb orb]. replace (blk =? nth s2lt [0; 2; 3] 0) with false by (rewrite E1; reflexivity). exact E.
    + assert (Hb : blk = 0 \/ blk = 3) by (clear - Hs E1; destruct s2lt as [|[|[|]]]; cbn; lia). replace (blk =? nth s2lt [0; 2; 3] 0) with true by (clear - Hs E1; destruct s2lt as [|[|[|]]]; try reflexivity; lia). cbn [negb andb].
      rewrite (set2b_G _ _ _ _ _ _ _ _ _ _ _ _ G); [rewrite (set2b_G _ _ _ _ _ _ _ _ _ _ _ _ G); [rewrite E|]|]; subst G.
      * do 2 match goal with |- (if ?c then _ else _) = _ => destruct c; [reflexivity|]; cbn [orb] end. reflexivity.
      * intros -> Ep. dpat Ep. arrs. rewrite Ha by assumption. (rewrite (ex2 fr blk (i, p) (l, q)); [reflexivity|exact Hb|okxt]).
      * intros -> Ep. dpat Ep. arrs. rewrite Ha by assumption. (rewrite (ex3 fr blk (k, p) (j, q)); [reflexivity|exact Hb|okxt]).
  - discriminate.
  - intros b p q r u H. rewrite !orb_true_iff, !andb_true_iff, !Nat.eqb_eq, !pat_iff in H. assert (Hb : b < 4) by (clear - H Hs; destruct s2lt as [|[|[|]]]; cbn in H; lia).
    unfold orb_in. decompose [and or] H; clear H; (repeat match goal with E : fst _ = _ |- _ => rewrite E; clear E end); (repeat split; [assumption..|cbn [In]; tauto|cbn [In]; tauto]).
  - intros s p q e e' Hs' [Lp Hp] [Lq Hq] Hf P1 P2 P3. exfalso. apply Permutation_length in P1. discriminate.
  - intros b p q r u e e' Hb Hp Hq Hr Hu Hf P1 P2 P3. rewrite !orb_true_iff, !andb_true_iff, !pat_frags, !Nat.eqb_eq by assumption. clear Hp Hq Hr Hu Hf.
    apply Permutation_length_2_inv in P1, P2. cbn [app] in P1, P2. destruct p as [fp p], q as [fq q], r as [f3 r], u as [f4 u]. cbn [fst In] in *.
    revert P1 P2. clear - Hs Hb N1 N2 N3 N4. intros P1 P2.
    destruct P1 as [P1|P1], P2 as [P2|P2]; injection P1; injection P2; clear P1 P2; intros; subst; destruct s2lt as [|[|[|]]]; [| | |lia| | | |lia| | | |lia| | | |lia]; four b; try discriminate; try (exfalso; congruence); pkr.
Qed.
Lemma s1_lt : s1 < 2. Proof. apply (three (fun s => sp1 s < 2)); cbn; lia. Qed.
Lemma s2_lt : s2 < 2. Proof. apply (three (fun s => sp2 s < 2)); cbn; lia. Qed.
Lemma abv2 f : abv nf (fun g => mem g fr) pA f = xorb (abv nf (fun g => mem g fr) pB f) (xorb (f <? i) (xorb (f <? k) (xorb (f <? l) (f <? j)))).
Proof.
  rewrite (abvA _ _ _ (X2 blk (i, 0) (j, 0) (k, 0) (l, 0)) f C).
  - unfold xfr. xcbn. par. btauto.
  - cbn [xspins]. apply (three (fun s => nth s [0; 1; 3] 0 < 4)); cbn; lia.
  - intros g t. cbn [xcre xann]. rewrite blk_s1, blk_s2. reflexivity.
  - unfold xfr. xcbn. cbn [In]. tauto.
Qed.
Lemma xops2 p q r u : xops (X2 blk p q r u) = [cr s1 p; cr s2 r; an s2 u; an s1 q].
Proof. cbn [xops]. now rewrite blk_s1, blk_s2. Qed.
Notation ab f := (abv nf (fun g => mem g fr) pB f).
Ltac can2 := rewrite xops2; xcbn; par; match goal with |- sg K ?b _ = sg K ?c _ => replace b with c end; [apply (f_equal (sg K _)); cbn [bprod fold_right]; atf; ring|].
Lemma can_2c_4 p q r u : i <> k -> j <> l ->
  Lx fr (X2 blk (i, p) (j, q) (k, r) (l, u)) = sg K (xorb (xorb (xorb (xorb (xorb (k <? i) (abv nf (fun g => mem g fr) pA i)) (abv nf (fun g => mem g fr) pA k)) (l <? j)) (ab j)) (ab l))
    (smul (smul (el i (A i) (B i) [cr s1 (i, p)]) (el k (A k) (B k) [cr s2 (k, r)])) (smul (el l (A l) (B l) [an s2 (l, u)]) (el j (A j) (B j) [an s1 (j, q)]))).
Proof.
  intros M1 M2. rewrite (Lx_on fr [i; j; k; l]) by (first [tauto | nodup | exact lt_fr]). can2. rewrite !abv2, !Nat.ltb_irrefl. btauto.
Qed.
Lemma can_2c_ik p q r u : i = k -> j <> l ->
  Lx fr (X2 blk (i, p) (j, q) (k, r) (l, u)) = sg K (xorb (xorb (xorb false (l <? j)) (ab j)) (ab l))
    (smul (el i (A i) (B i) [cr s1 (i, p); cr s2 (i, r)]) (smul (el l (A l) (B l) [an s2 (l, u)]) (el j (A j) (B j) [an s1 (j, q)]))).
Proof.
  intros E M2. rewrite (Lx_on fr [i; j; l]) by (first [nodup | exact lt_fr | intros f; cbn [In]; intuition congruence]). rewrite <- E. can2. btauto.
Qed.
Lemma can_2c_jl p q r u : i <> k -> j = l ->
  Lx fr (X2 blk (i, p) (j, q) (k, r) (l, u)) = sg K (xorb (xorb (k <? i) (abv nf (fun g => mem g fr) pA i)) (abv nf (fun g => mem g fr) pA k))
    (smul (smul (el i (A i) (B i) [cr s1 (i, p)]) (el k (A k) (B k) [cr s2 (k, r)])) (el j (A j) (B j) [an s2 (j, u); an s1 (j, q)])).
Proof.
  intros M1 E. rewrite (Lx_on fr [i; j; k]) by (first [nodup | exact lt_fr | intros f; cbn [In]; intuition congruence]). rewrite !abv2, <- E. can2. rewrite ?Nat.ltb_irrefl. btauto.
Qed.
Lemma can_2c_2 p q r u : i = k -> j = l ->
  Lx fr (X2 blk (i, p) (j, q) (k, r) (l, u)) = sg K false (smul (el i (A i) (B i) [cr s1 (i, p); cr s2 (i, r)]) (el j (A j) (B j) [an s2 (j, u); an s1 (j, q)])).
Proof.
  intros E1 E2. rewrite (Lx_on fr [i; j]) by (first [nodup | exact lt_fr | intros f; cbn [In]; intuition congruence]). rewrite <- E1, <- E2. can2. btauto.
Qed.
Lemma few_i : if i =? k then fewer ne i (B i) (A i) (2 - s2lt) s2lt else fewer ne i (B i) (A i) (1 - s1) s1 /\ fewer ne k (B k) (A k) (1 - s2) s2.
Proof.
  destruct (ch _ _ _ i C in_i) as [M0 M1]. destruct (ch _ _ _ k C in_k) as [M0k M1k].
  assert (Z : forall f t, f <> j -> f <> l -> times (f, t) [(l, s2); (j, s1)] = 0%Z) by (intros f t Z1 Z2; cbn [times fst snd]; rewrite (proj2 (Nat.eqb_neq f l)), (proj2 (Nat.eqb_neq f j)) by assumption; reflexivity).
  unfold moves in *. rewrite Z in * by assumption. cbn [times fst snd] in *. rewrite !Nat.eqb_refl in *. rewrite (Nat.eqb_sym k i) in *. unfold fewer.
  destruct (Nat.eqb_spec i k) as [E|Ne]; clear - M0 M1 M0k M1k Hs; destruct s2lt as [|[|[|]]]; cbn in *; lia.
Qed.
Lemma few_j : if j =? l then fewer ne j (A j) (B j) (2 - s2lt) s2lt else fewer ne j (A j) (B j) (1 - s1) s1 /\ fewer ne l (A l) (B l) (1 - s2) s2.
Proof.
  destruct (ch _ _ _ j C in_j) as [M0 M1]. destruct (ch _ _ _ l C in_l) as [M0k M1k].
  assert (Z : forall f t, f <> i -> f <> k -> times (f, t) [(i, s1); (k, s2)] = 0%Z) by (intros f t Z1 Z2; cbn [times fst snd]; rewrite (proj2 (Nat.eqb_neq f i)), (proj2 (Nat.eqb_neq f k)) by assumption; reflexivity).
  unfold moves in *. rewrite Z in * by congruence. cbn [times fst snd] in *. rewrite !Nat.eqb_refl in *. rewrite (Nat.eqb_sym l j) in *. unfold fewer.
  destruct (Nat.eqb_spec j l) as [E|Ne]; clear - M0 M1 M0k M1k Hs; destruct s2lt as [|[|[|]]]; cbn in *; lia.
Qed.
Lemma fit f (a : nat * nat) : f < nf -> st_in nl f a -> fst (ne f (fst a)) <= n f /\ snd (ne f (fst a)) <= n f.
Proof. intros Hf Ha. apply Hfit; [exact Hf|]. unfold st_in in Ha. lia. Qed.
Lemma anti_cc f s a b x y : x < n f -> y < n f -> sadd (el f a b [cr s (f, x); cr s (f, y)]) (el f a b [cr s (f, y); cr s (f, x)]) = s0.
Proof.
  intros Hx Hy. pose proof (el_swap K n V f a b true (f, down s, x) (f, down s, y) [] [] ltac:(okats)) as E. change (el f a b [cr s (f, x); cr s (f, y)] = sopp (el f a b [cr s (f, y); cr s (f, x)])) in E. rewrite E. ring.
Qed.
Lemma anti_aa f s a b x y : x < n f -> y < n f -> sadd (el f a b [an s (f, x); an s (f, y)]) (el f a b [an s (f, y); an s (f, x)]) = s0.
Proof.
  intros Hx Hy. pose proof (el_swap K n V f a b false (f, down s, x) (f, down s, y) [] [] ltac:(okats)) as E. change (el f a b [an s (f, x); an s (f, y)] = sopp (el f a b [an s (f, y); an s (f, x)])) in E. rewrite E. ring.
Qed.
Lemma same_sp : s2lt <> 1 -> s1 = s2.
Proof. clear - Hs. intros H. destruct s2lt as [|[|[|]]]; try lia; reflexivity. Qed.
Lemma chk_i (Tp : @arr K) : fewer ne i (B i) (A i) (2 - s2lt) s2lt -> (forall p q, p < n i -> q < n i -> Tp [p; q] = el i (A i) (B i) [cr s1 (i, p); cr s2 (i, q)]) ->
  s2lt <> 1 -> 0 < n i /\ forall x y, x < n i -> y < n i -> sadd (Tp [x; y]) (Tp [y; x]) = s0.
Proof.
  intros [F1 F2] Vp Ne. destruct (loc_st _ _ _ i C in_i) as (Li & SAi & SBi). split.
  - destruct (fit i _ Li SAi) as [Q1 Q2]. lia.
  - intros x y Hx Hy. rewrite !Vp by assumption. rewrite (same_sp Ne). now apply anti_cc.
Qed.
Lemma chk_j (Tp : @arr K) : fewer ne j (A j) (B j) (2 - s2lt) s2lt -> (forall p q, p < n j -> q < n j -> Tp [p; q] = el j (A j) (B j) [an s2 (j, p); an s1 (j, q)]) ->
  s2lt <> 1 -> 0 < n j /\ forall x y, x < n j -> y < n j -> sadd (Tp [x; y]) (Tp [y; x]) = s0.
Proof.
  intros [F1 F2] Vp Ne. destruct (loc_st _ _ _ j C in_j) as (Lj & SAj & SBj). split.
  - destruct (fit j _ Lj SBj) as [Q1 Q2]. lia.
  - intros x y Hx Hy. rewrite !Vp by assumption. rewrite (same_sp Ne). now apply anti_aa.
Qed.
Lemma row_2c : row_is fr (crunch_2c n ints uroot nelec_rf nz bra ket i j k l s2lt).
Proof.
  pose proof few_i as Fi. pose proof few_j as Fj.
  destruct (loc_st _ _ _ i C in_i) as (Li & SAi & SBi). destruct (loc_st _ _ _ j C in_j) as (Lj & SAj & SBj). destruct (loc_st _ _ _ k C in_k) as (Lk & SAk & SBk). destruct (loc_st _ _ _ l C in_l) as (Ll & SAl & SBl).
  unfold crunch_2c. rewrite blk_s1, blk_s2.
  destruct (Nat.eqb_spec i k) as [Eik|Nik]; destruct (Nat.eqb_spec j l) as [Ejl|Njl].
  - destruct (get_pp i s2lt Li SAi SBi Hs Fi) as (Tp & Gp & Vp). destruct (get_hh j s2lt Lj SAj SBj Hs Fj) as (Th & Gh & Vh). fold s1 in Vp, Vh. fold s2 in Vp, Vh. rewrite Gp. cbn [bind].
    rewrite check_ok by now apply chk_i. rewrite Gh. cbn [bind]. rewrite check_ok by now apply chk_j. cbv zeta. apply finish_2c. intros p q r u Hp Hq Hr Hu. rewrite can_2c_2 by assumption.
    rewrite <- Eik in Hr. rewrite <- Ejl in Hu. rewrite <- Vp, <- Vh by assumption. reflexivity.
  - destruct (get_pp i s2lt Li SAi SBi Hs Fi) as (Tp & Gp & Vp). fold s1 in Vp. fold s2 in Vp. destruct Fj as [Fj Fl]. destruct (get_h j s1 Lj SAj SBj s1_lt Fj) as (Tj & Gj & Vj). destruct (get_h l s2 Ll SAl SBl s2_lt Fl) as (Tl & Gl & Vl).
    rewrite Gp. cbn [bind]. rewrite check_ok by now apply chk_i. rewrite Gl, Gj. cbn [bind]. rewrite !des_ket by (first [exact lt_fr | exact in_j | exact in_l]). cbn [bind]. cbv zeta. apply finish_2c.
    intros p q r u Hp Hq Hr Hu. rewrite can_2c_ik by assumption. rewrite <- Eik in Hr. rewrite <- Vp, <- Vj, <- Vl by assumption. reflexivity.
  - destruct (get_hh j s2lt Lj SAj SBj Hs Fj) as (Th & Gh & Vh). fold s1 in Vh. fold s2 in Vh. destruct Fi as [Fi Fk]. destruct (get_p i s1 Li SAi SBi s1_lt Fi) as (Ti & Gi & Vi). destruct (get_p k s2 Lk SAk SBk s2_lt Fk) as (Tk & Gk & Vk).
    rewrite Gi, Gk. cbn [bind]. rewrite !des_bra by (first [exact lt_fr | exact in_i | exact in_k]). cbn [bind]. rewrite Gh. cbn [bind]. rewrite check_ok by now apply chk_j. cbv zeta. apply finish_2c.
    intros p q r u Hp Hq Hr Hu. rewrite can_2c_jl by assumption. rewrite <- Ejl in Hu. rewrite <- Vh, <- Vi, <- Vk by assumption. reflexivity.
  - destruct Fi as [Fi Fk]. destruct (get_p i s1 Li SAi SBi s1_lt Fi) as (Ti & Gi & Vi). destruct (get_p k s2 Lk SAk SBk s2_lt Fk) as (Tk & Gk & Vk). destruct Fj as [Fj Fl]. destruct (get_h j s1 Lj SAj SBj s1_lt Fj) as (Tj & Gj & Vj). destruct (get_h l s2 Ll SAl SBl s2_lt Fl) as (Tl & Gl & Vl).
    rewrite Gi, Gk. cbn [bind]. rewrite !des_bra by (first [exact lt_fr | exact in_i | exact in_k]). cbn [bind]. rewrite Gl, Gj. cbn [bind]. rewrite !des_ket by (first [exact lt_fr | exact in_j | exact in_l]). cbn [bind]. cbv zeta. apply finish_2c.
    intros p q r u Hp Hq Hr Hu. rewrite can_2c_4 by assumption. rewrite <- Vi, <- Vk, <- Vj, <- Vl by assumption. reflexivity.
Qed.
End TwoC.
End Rows.
