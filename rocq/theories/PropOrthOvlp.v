(** C77: the overlaps of the rootspaces of a manifold are the same in every row, so that xmat, made of the first row (basis.py:87-95), orthonormalises
    all of them. *)
From Coq Require Import List Bool Arith ZArith Reals Lia Lra.
From Verif Require Import Base BaseFacts Star FockSpec LsisUpdModel SmultSpec SmultAlg SmultComm SmultModel SpfacModel SpfacFacts PropSmult PropSpfac PropSpfacTerm SplitModel SplitFacts PropSplit PropOrth.
Import ListNotations.
Local Open Scope R_scope.

Lemma ovlp_const n S psi' psi M1 M2 : multiplet n S psi' -> multiplet n S psi -> member S M1 -> member S M2 -> inner Rs (2 * n) (psi' M1) (psi M1) = inner Rs (2 * n) (psi' M2) (psi M2).
Proof.
  intros Hb Hk H1 H2. refine (proj1 (scalar_const S S (E n psi' psi []) M1 M2 _ H1 H1 H2 H2)). intros M' M HM' HM. pose proof (comm_M n S S psi' psi Hb Hk [] (Forall_nil _) M' M HM' HM) as K. cbn [der comb fold_right] in K. lra.
Qed.
Section Overlaps.
(** orbitals and 2s of the fragments; the states with one fingerprint, a multiplet for each of the local states *)
Variables (nf : nat) (norb : nat -> nat) (S : nat -> Z) (psi : nat -> Z -> nat -> Z -> vec Rs) (spins fp : nat -> row).
Definition state (r f i : nat) : vec Rs := psi f (nth f (fp r) 0%Z) i (nth f (spins r) 0%Z).
(** overlap of the product states of rootspaces [r] and [r'] with the local states [i] and [j] of the fragments (see C68) *)
Definition ovlp (r : nat) (i : nat -> nat) (r' : nat) (j : nat -> nat) : R :=
  fold_right Rmult 1 (map (fun f => inner Rs (2 * norb f) (state r f (i f)) (state r' f (j f))) (seq 0 nf)).
Theorem C77_overlaps m dom : (forall f k i, (f < nf)%nat -> multiplet (norb f) (S f) (psi f k i)) -> (forall b, In b m -> all_with spins dom b) -> matched fp m ->
  (forall b f, In b m -> (f < nf)%nat -> member (S f) (nth f (b_str b) 0%Z)) ->
  forall b b' c d i j, In b m -> In b' m -> (c < length (b_roots b))%nat -> (d < length (b_roots b))%nat ->
  ovlp (nth c (b_roots b) 0%nat) i (nth d (b_roots b) 0%nat) j = ovlp (nth c (b_roots b') 0%nat) i (nth d (b_roots b') 0%nat) j.
Proof.
  intros HM HA HF HS b b' c d i j Hb Hb' Hc Hd. unfold ovlp. f_equal. apply map_ext_in. intros f Hf. apply in_seq in Hf. pose proof (HF b b' Hb Hb') as E. assert (L : length (b_roots b) = length (b_roots b')) by (rewrite <- (map_length fp), E, map_length; reflexivity).
  assert (P : forall x, (x < length (b_roots b))%nat -> fp (nth x (b_roots b) 0%nat) = fp (nth x (b_roots b') 0%nat)).
  { intros x Hx. rewrite <- !(map_nth fp). rewrite E. reflexivity. }
  assert (Q : forall y x, In y m -> (x < length (b_roots y))%nat -> spins (nth x (b_roots y) 0%nat) = b_str y) by (intros y x Hy Hx; destruct (HA y Hy) as (_ & _ & A); apply A, nth_In, Hx).
  unfold state. rewrite !(P c), !(P d), (Q b c), (Q b d), (Q b' c), (Q b' d) by (assumption || congruence || lia).
  apply (ovlp_const (norb f) (S f)); [apply HM; lia|apply HM; lia|apply HS; [exact Hb|lia]|apply HS; [exact Hb'|lia]].
Qed.
End Overlaps.
(** Two fragments with one electron each, spins up, down in rootspace 0 and down, up in rootspace 1: both have the overlap 1 with themselves. *)
Example C77_overlaps_example : let spins r := match r with O => [1; -1]%Z | _ => [-1; 1]%Z end in let ov := ovlp 2 (fun _ => 1%nat) (fun _ _ _ => one) spins (fun _ => [0; 0]%Z) in
  let m := [mkB [1; -1]%Z [0%nat] true; mkB [-1; 1]%Z [1%nat] false] in matched (fun _ => [0; 0]%Z) m /\ ov 0%nat (fun _ => 0%nat) 0%nat (fun _ => 0%nat) = 1 /\ ov 1%nat (fun _ => 0%nat) 1%nat (fun _ => 0%nat) = 1.
Proof.
  cbv zeta. assert (E : inner Rs (2 * 1) (one 1%Z) (one 1%Z) = 1 /\ inner Rs (2 * 1) (one (-1)%Z) (one (-1)%Z) = 1) by (split; cbv -[Rplus Rmult Rminus Ropp R0 R1 IZR]; ring). destruct E as [E1 E2].
  split; [|split].
  - intros b b' [<-|[<-|[]]] [<-|[<-|[]]]; reflexivity.
  - unfold ovlp, state. cbn [seq map fold_right nth]. rewrite E1, E2. ring.
  - unfold ovlp, state. cbn [seq map fold_right nth]. rewrite E1, E2. ring.
Qed.
Print Assumptions C77_overlaps_example.
Print Assumptions C77_overlaps.
