(** The cruncher functions write to the orbitals of their fragments alone; slices of arrays with integer indices. *)
From Coq Require Import List ZArith Bool Arith Lia.
From Verif Require Import Base BaseFacts Star SCModel SCBlocks AddrModel StdmModel SignsModel CrunchModel ScatterModel ScatterC ScatterFacts ScatterLoop.
Import ListNotations.
Local Open Scope nat_scope.

Section Supp.
  Context {K : star_ring}.
  Variables (norb : nat -> nat) (ints : nat -> @fmats K) (uroot : nat -> nat -> nat) (nelec_rf : nat -> list nat) (nz : K -> bool).
  Variable inv : list nat.
  Definition supp1 (d : D1 (K := K)) : Prop := forall s p q, fragidx inv (fst p) && fragidx inv (fst q) = false -> d s p q = s0.
  Definition supp2 (d : D2 (K := K)) : Prop := forall c p q r u, fragidx inv (fst p) && fragidx inv (fst q) && (fragidx inv (fst r) && fragidx inv (fst u)) = false -> d c p q r u = s0.
  Lemma frag_in f : In f inv -> fragidx inv f = true.
  Proof. intros I. unfold fragidx. apply existsb_exists. exists f. split; [exact I|apply Nat.eqb_refl]. Qed.
  Lemma ofrag_in f p : In f inv -> ofrag norb f p = true -> fragidx inv (fst p) = true.
  Proof. intros I H. unfold ofrag in H. apply andb_true_iff in H as [H _]. apply Nat.eqb_eq in H. rewrite H. now apply frag_in. Qed.
  Lemma supp_set1 bs f g a d : In f inv -> In g inv -> supp1 d -> supp1 (set1 norb bs f g a d).
  Proof.
    intros If Ig H s p q E. unfold set1. destruct (index_of s bs); [|now apply H]. destruct (ofrag norb f p && ofrag norb g q) eqn:O; [|now apply H].
    apply andb_true_iff in O as [O1 O2]. rewrite (ofrag_in f p If O1), (ofrag_in g q Ig O2) in E. discriminate.
  Qed.
  Lemma supp_set2 bs f1 f2 f3 f4 a d : In f1 inv -> In f2 inv -> In f3 inv -> In f4 inv -> supp2 d -> supp2 (set2 norb bs f1 f2 f3 f4 a d).
  Proof.
    intros I1 I2 I3 I4 H c p q r u E. unfold set2. destruct (index_of c bs); [|now apply H]. destruct (ofrag norb f1 p && ofrag norb f2 q && ofrag norb f3 r && ofrag norb f4 u) eqn:O; [|now apply H].
    rewrite !andb_true_iff in O. destruct O as [[[O1 O2] O3] O4]. rewrite (ofrag_in _ p I1 O1), (ofrag_in _ q I2 O2), (ofrag_in _ r I3 O3), (ofrag_in _ u I4 O4) in E. discriminate.
  Qed.
  Lemma supp_z1 : supp1 z1.
  Proof. intros s p q _. reflexivity. Qed.
  Lemma supp_z2 : supp2 z2.
  Proof. intros c p q r u _. reflexivity. Qed.
  Lemma supp_dens lbl d1 d2 : supp1 d1 -> supp2 d2 -> (has_d1 lbl = false -> d1 = z1) -> supported lbl inv (dens d1 d2).
  Proof. intros H1 H2 H3. split; [exact H1|]. split; [exact H2|]. intros E s p q. cbn [dens]. rewrite (H3 E). reflexivity. Qed.
End Supp.
Ltac supp_in := first [now left | right; supp_in].
Ltac supp_tac := repeat first [apply supp_z1 | apply supp_z2 | apply supp_set1; [supp_in|supp_in|] | apply supp_set2; [supp_in|supp_in|supp_in|supp_in|]].

Section Supp2.
  Context {K : star_ring}.
  Variables (norb : nat -> nat) (ints : nat -> @fmats K) (uroot : nat -> nat -> nat) (nelec_rf : nat -> list nat) (nz : K -> bool).
  Lemma crunch_supported lbl frags spin bra ket d : crunch norb ints uroot nelec_rf nz lbl frags spin bra ket = Ok d -> supported lbl frags d.
  Proof.
    assert (G : forall A (r : res A) k (d : tix -> K), (do x <- r ;; k x) = Ok d -> exists x, r = Ok x /\ k x = Ok d) by (intros A [x|] k d0 E; [now exists x|discriminate]).
    assert (F : forall i j a (d : tix -> K) k, check_pair norb nz i j a k = Ok d -> k = Ok d) by (intros i j a d0 k E; unfold check_pair in E; destruct (j =? 1); [exact E|]; unfold py_assert in E; destruct (negb _); [exact E|discriminate]).
    intros E. unfold crunch in E.
    destruct lbl as [|[|[|[|[|[|[|lbl]]]]]]]; try discriminate E.
    all: destruct frags as [|i [|j [|k [|l [|]]]]]; try discriminate E; destruct spin as [s|]; try discriminate E.
    - unfold crunch_1d in E. apply G in E as (a & _ & E). apply G in E as (b & _ & E). injection E as <-. apply supp_dens; [supp_tac|supp_tac|discriminate].
    - unfold crunch_2d in E. apply G in E as (a & _ & E). apply G in E as (b & _ & E). injection E as <-. apply supp_dens; [supp_tac|supp_tac|reflexivity].
    - unfold crunch_1c in E. do 6 (apply G in E as (? & _ & E)). injection E as <-. unfold crunch_1c_tdm2, set2b, set1b. apply supp_dens; [supp_tac|supp_tac|discriminate].
    - unfold crunch_1c1d in E. do 5 (apply G in E as (? & _ & E)). injection E as <-. unfold crunch_1c_tdm2, set2b. apply supp_dens; [supp_tac|supp_tac|reflexivity].
    - unfold crunch_1s in E. do 2 (apply G in E as (? & _ & E)). injection E as <-. unfold set2b. apply supp_dens; [supp_tac|supp_tac|reflexivity].
    - unfold crunch_1s1c in E. do 5 (apply G in E as (? & _ & E)). injection E as <-. unfold set2b. apply supp_dens; [supp_tac|supp_tac|reflexivity].
    - unfold crunch_2c in E. unfold set2b in E. cbv zeta in E.
      destruct (i =? k).
      + apply G in E as (pp & _ & E). apply F in E. destruct (j =? l).
        * apply G in E as (hh & _ & E). apply F in E. injection E as <-. apply supp_dens; [supp_tac| |reflexivity]. destruct (_ =? _); supp_tac.
        * do 4 (apply G in E as (? & _ & E)). injection E as <-. apply supp_dens; [supp_tac| |reflexivity]. destruct (_ =? _); supp_tac.
      + do 4 (apply G in E as (? & _ & E)). destruct (j =? l).
        * apply G in E as (hh & _ & E). apply F in E. injection E as <-. apply supp_dens; [supp_tac| |reflexivity]. destruct (_ =? _); supp_tac.
        * do 4 (apply G in E as (? & _ & E)). injection E as <-. apply supp_dens; [supp_tac| |reflexivity]. destruct (_ =? _); supp_tac.
  Qed.
  Lemma crunch_length lbl frags spin bra ket d : crunch norb ints uroot nelec_rf nz lbl frags spin bra ket = Ok d -> length frags <= 4.
  Proof. intros E. unfold crunch in E. destruct lbl as [|[|[|[|[|[|[|lbl]]]]]]]; try discriminate E; destruct frags as [|i [|j [|k [|l [|]]]]]; try discriminate E; cbn; lia. Qed.
  Lemma crunch_D_supported lbl frags spin bra ket : supported lbl frags (crunch_D norb ints uroot nelec_rf nz lbl frags spin bra ket).
  Proof.
    unfold crunch_D. destruct (crunch norb ints uroot nelec_rf nz lbl frags spin bra ket) as [d|] eqn:E; [exact (crunch_supported lbl frags spin bra ket d E)|].
    split; [reflexivity|]. split; [reflexivity|]. reflexivity.
  Qed.

  (** Slices at the ranges of get_range: lines 456-471 *)
  Lemma slice_at nl f p : p < list_sum nl -> nth f nl 0 = norb f -> within (get_range nl f) p = ofrag norb f (locate nl p) /\ (fst (locate nl p) = f -> p - fst (get_range nl f) = snd (locate nl p)).
  Proof.
    intros Hp E. destruct (locate_spec nl p Hp) as (A & B & C). split.
    - rewrite in_range_locate by exact Hp. unfold ofrag. destruct (Nat.eqb_spec (fst (locate nl p)) f) as [H|]; [|reflexivity]. cbn [andb]. symmetry. apply Nat.ltb_lt. rewrite <- E, <- H. exact B.
    - intros H. unfold get_range. cbn [fst]. rewrite H in C. lia.
  Qed.
  Lemma ofrag_eq f p : ofrag norb f p = true -> fst p = f.
  Proof. intros H. apply andb_true_iff in H as [H _]. now apply Nat.eqb_eq. Qed.
  Lemma slice1_set1 nl bs f g a (d : D1 (K := K)) s p q : nth f nl 0 = norb f -> nth g nl 0 = norb g -> p < list_sum nl -> q < list_sum nl ->
    slice1 bs (get_range nl f) (get_range nl g) a (fun s p q => d s (locate nl p) (locate nl q)) s p q = set1 norb bs f g a d s (locate nl p) (locate nl q).
  Proof.
    intros Ef Eg Hp Hq. unfold slice1, set1. destruct (index_of s bs) as [k|]; [|reflexivity].
    destruct (slice_at nl f p Hp Ef) as [Wf Sf]. destruct (slice_at nl g q Hq Eg) as [Wg Sg]. rewrite Wf, Wg.
    destruct (ofrag norb f (locate nl p)) eqn:Of; [|reflexivity]. destruct (ofrag norb g (locate nl q)) eqn:Og; [|reflexivity]. cbn [andb]. rewrite Sf, Sg by (now apply ofrag_eq). reflexivity.
  Qed.
  Lemma slice2_set2 nl bs f1 f2 f3 f4 a (d : D2 (K := K)) c p q r u : nth f1 nl 0 = norb f1 -> nth f2 nl 0 = norb f2 -> nth f3 nl 0 = norb f3 -> nth f4 nl 0 = norb f4 ->
    p < list_sum nl -> q < list_sum nl -> r < list_sum nl -> u < list_sum nl ->
    slice2 bs (get_range nl f1) (get_range nl f2) (get_range nl f3) (get_range nl f4) a (fun c p q r u => d c (locate nl p) (locate nl q) (locate nl r) (locate nl u)) c p q r u
    = set2 norb bs f1 f2 f3 f4 a d c (locate nl p) (locate nl q) (locate nl r) (locate nl u).
  Proof.
    intros E1 E2 E3 E4 Hp Hq Hr Hu. unfold slice2, set2. destruct (index_of c bs) as [k|]; [|reflexivity].
    destruct (slice_at nl f1 p Hp E1) as [W1 S1]. destruct (slice_at nl f2 q Hq E2) as [W2 S2]. destruct (slice_at nl f3 r Hr E3) as [W3 S3]. destruct (slice_at nl f4 u Hu E4) as [W4 S4]. rewrite W1, W2, W3, W4.
    destruct (ofrag norb f1 (locate nl p)) eqn:O1; [|reflexivity]. destruct (ofrag norb f2 (locate nl q)) eqn:O2; [|reflexivity].
    destruct (ofrag norb f3 (locate nl r)) eqn:O3; [|reflexivity]. destruct (ofrag norb f4 (locate nl u)) eqn:O4; [|reflexivity]. cbn [andb]. rewrite S1, S2, S3, S4 by (now apply ofrag_eq). reflexivity.
  Qed.
End Supp2.
