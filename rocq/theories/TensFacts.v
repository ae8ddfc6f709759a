(** Facts about permutations and transposed tensors. *)
From Coq Require Import List Arith QArith Lia Permutation.
From Verif Require Import BaseFacts TensModel.
Import ListNotations.
Local Open Scope nat_scope.

Lemma picks_perm {X} (l : list X) x r : In (x, r) (picks l) -> Permutation l (x :: r).
Proof.
  revert x r. induction l as [|y l IH]; intros x r H; [easy|]. cbn in H. destruct H as [[= <- <-]|H]; [reflexivity|].
  apply in_map_iff in H as ([a b] & [= <- <-] & Hin). cbn. apply IH in Hin. rewrite Hin. constructor.
Qed.
Lemma picks_ex {X} (l : list X) x : In x l -> exists r, In (x, r) (picks l).
Proof.
  induction l as [|y l IH]; intros H; [easy|]. destruct H as [->|H]; [exists l; now left|].
  destruct (IH H) as [r Hr]. exists (y :: r). right. apply in_map_iff. exists (x, r). auto.
Qed.
Lemma picks_map {X Y} (f : X -> Y) l : picks (map f l) = map (fun p => (f (fst p), map f (snd p))) (picks l).
Proof. induction l as [|x l IH]; [reflexivity|]. cbn. f_equal. rewrite IH, !map_map. reflexivity. Qed.
Lemma picks_len {X} (l : list X) x r : In (x, r) (picks l) -> length l = S (length r).
Proof. intros H. apply picks_perm, Permutation_length in H. exact H. Qed.
Lemma picks_fst {X} (l : list X) : map fst (picks l) = l.
Proof. induction l as [|x l IH]; [reflexivity|]. cbn. f_equal. rewrite map_map. cbn. exact IH. Qed.

Lemma perms_in {X} n (l p : list X) : length l = n -> (In p (perms_ n l) <-> Permutation l p).
Proof.
  revert l p. induction n as [|n IH]; intros l p Hl.
  - destruct l; [|discriminate]. cbn. split; [intros [<-|[]]; constructor | intros H; apply Permutation_nil in H; auto].
  - cbn. rewrite in_flat_map. split.
    + intros ([x r] & Hp & H). apply in_map_iff in H as (q & <- & Hq). cbn in *. pose proof (picks_len _ _ _ Hp).
      apply IH in Hq; [|lia]. apply picks_perm in Hp. rewrite Hp, Hq. reflexivity.
    + intros H. destruct p as [|x q]; [apply Permutation_length in H; cbn in H; lia|].
      assert (In x l) as Hx by (apply (Permutation_in _ (Permutation_sym H)); now left).
      destruct (picks_ex l x Hx) as [r Hr]. exists (x, r). split; [exact Hr|]. apply in_map_iff. exists q. split; [reflexivity|].
      apply IH; [apply picks_len in Hr; cbn; lia|]. cbn. apply picks_perm in Hr. rewrite Hr in H. now apply Permutation_cons_inv in H.
Qed.
Lemma perms_nodup {X} n (l : list X) : length l = n -> NoDup l -> NoDup (perms_ n l).
Proof.
  revert l. induction n as [|n IH]; intros l Hl Hd; [cbn; constructor; [easy | constructor]|]. cbn.
  assert (W : forall pl, (forall (x : X) r, In (x, r) pl -> length r = n /\ NoDup r) -> NoDup (map fst pl) ->
    NoDup (flat_map (fun p => map (cons (fst p)) (perms_ n (snd p))) pl)).
  { induction pl as [|[x r] pl IHp]; intros H1 H2; [constructor|]. cbn. apply NoDup_app_intro.
    - apply FinFun.Injective_map_NoDup; [intros a b [= ->]; reflexivity|]. apply IH; apply (H1 x r (or_introl eq_refl)).
    - apply IHp; [intros; apply (H1 x0 r0); now right | now inversion H2].
    - intros a Ha Hb. apply in_map_iff in Ha as (q & <- & _). apply in_flat_map in Hb as ([y s] & Hy & Hb). apply in_map_iff in Hb as (q' & [= -> ->] & _).
      cbn in *. inversion H2; subst. apply H3. apply in_map_iff. exists (x, s). auto. }
  apply W.
  - intros x r H. split; [apply picks_len in H; lia|]. apply picks_perm in H. apply (Permutation_NoDup H) in Hd. now inversion Hd.
  - rewrite picks_fst. exact Hd.
Qed.
Lemma perms_map {X Y} (f : X -> Y) n l : perms_ n (map f l) = map (map f) (perms_ n l).
Proof.
  revert l. induction n as [|n IH]; intros l; [reflexivity|]. cbn. rewrite picks_map. rewrite !flat_map_concat_map, concat_map, !map_map.
  f_equal. apply map_ext. intros [x r]. cbn. rewrite IH, !map_map. reflexivity.
Qed.
Lemma perms_hd {X} n (l : list X) : length l = n -> exists r, perms_ n l = l :: r.
Proof.
  revert l. induction n as [|n IH]; intros l Hl; [destruct l; [|discriminate]; now exists []|].
  destruct l as [|x l]; [discriminate|]. cbn. destruct (IH l) as [r Hr]; [now injection Hl|]. rewrite Hr. cbn. eexists. reflexivity.
Qed.
Lemma perms_length {X} n (l : list X) : length l = n -> Z.of_nat (length (perms_ n l)) = factorial n.
Proof.
  revert l. induction n as [|n IH]; intros l Hl; [reflexivity|]. cbn [perms_ factorial].
  assert (W : forall pl, (forall (x : X) (r : list X), In (x, r) pl -> length r = n) ->
    Z.of_nat (length (flat_map (fun p => map (cons (fst p)) (perms_ n (snd p))) pl)) = (Z.of_nat (length pl) * factorial n)%Z).
  { induction pl as [|[x r] pl IHp]; intros H1; [reflexivity|]. cbn [flat_map]. rewrite app_length, map_length, Nat2Z.inj_add, IHp by (intros; eapply H1; right; eauto).
    cbn [snd length]. rewrite IH by (apply (H1 x); now left). lia. }
  rewrite W.
  - assert (length (picks l) = length l) as -> by (rewrite <- (picks_fst l) at 2; now rewrite map_length). now rewrite Hl.
  - intros x r H. apply picks_len in H. lia.
Qed.

(** ** The inverse of a permutation *)
Definition is_perm (n : nat) (p : list nat) : Prop := Permutation (seq 0 n) p.
Lemma is_perm_facts n p : is_perm n p -> length p = n /\ NoDup p /\ forall x, In x p <-> x < n.
Proof.
  intros H. split; [apply Permutation_length in H; now rewrite seq_length in H|]. split; [apply (Permutation_NoDup H), seq_NoDup|].
  intros x. split; intros Hx; [apply (Permutation_in _ (Permutation_sym H)), in_seq in Hx; lia | apply (Permutation_in _ H), in_seq; lia].
Qed.
Lemma index_of_nth p x d : In x p -> index_of x p < length p /\ nth (index_of x p) p d = x.
Proof.
  induction p as [|y p IH]; intros H; [easy|]. cbn. destruct (Nat.eqb_spec x y); [subst; split; [lia | reflexivity]|].
  destruct H as [->|H]; [contradiction|]. destruct (IH H). split; [lia | assumption].
Qed.
Lemma nth_index_of p k d : NoDup p -> k < length p -> index_of (nth k p d) p = k.
Proof.
  revert k. induction p as [|y p IH]; intros k Hd Hk; [cbn in Hk; lia|]. inversion Hd; subst. destruct k as [|k]; cbn; [now rewrite Nat.eqb_refl|].
  destruct (Nat.eqb_spec (nth k p d) y); [subst; exfalso; apply H1, nth_In; cbn in Hk; lia|]. rewrite IH; auto. cbn in Hk; lia.
Qed.
Definition invp (n : nat) (p : list nat) : list nat := map (fun a => index_of a p) (seq 0 n).
Lemma invp_nth n p a d : a < n -> nth a (invp n p) d = index_of a p.
Proof.
  intros H. unfold invp. rewrite nth_indep with (d' := (fun a => index_of a p) 0) by (now rewrite map_length, seq_length).
  rewrite (map_nth (fun a => index_of a p)). now rewrite seq_nth.
Qed.
Lemma invp_perm n p : is_perm n p -> is_perm n (invp n p).
Proof.
  intros H. destruct (is_perm_facts _ _ H) as (L & D & M). apply NoDup_Permutation_bis.
  - apply seq_NoDup.
  - unfold invp. now rewrite map_length.
  - intros x Hx. apply in_seq in Hx. unfold invp. apply in_map_iff. exists (nth x p 0).
    split; [apply nth_index_of; auto; lia|]. apply in_seq. assert (In (nth x p 0) p) as Hi by (apply nth_In; lia). apply M in Hi. lia.
Qed.
Lemma invp_invol n p : is_perm n p -> invp n (invp n p) = p.
Proof.
  intros H. destruct (is_perm_facts _ _ H) as (L & D & M). destruct (is_perm_facts _ _ (invp_perm _ _ H)) as (L' & D' & M').
  apply (nth_ext _ _ 0 0); [unfold invp at 1; rewrite map_length, seq_length; lia|].
  intros k Hk. assert (Hk' : k < n) by (unfold invp at 1 in Hk; rewrite map_length, seq_length in Hk; exact Hk).
  rewrite invp_nth by exact Hk'. assert (In (nth k p 0) p) as Hi by (apply nth_In; lia). apply M in Hi.
  assert (E : nth (nth k p 0) (invp n p) 0 = k) by (rewrite invp_nth by exact Hi; apply nth_index_of; auto; lia).
  rewrite <- E at 1. apply nth_index_of; [exact D' | now rewrite L'].
Qed.
Lemma invp_permutations n : Permutation (map (invp n) (permutations n)) (permutations n).
Proof.
  assert (P : forall p, In p (permutations n) <-> is_perm n p) by (intros p; apply perms_in, seq_length).
  assert (ND : NoDup (permutations n)) by (apply perms_nodup; [apply seq_length | apply seq_NoDup]).
  apply Permutation_sym, NoDup_Permutation_bis; [exact ND | now rewrite map_length|].
  intros p Hp. apply in_map_iff. exists (invp n p). apply P in Hp. split; [now apply invp_invol | apply P, invp_perm, Hp].
Qed.

(** ** Index pairs *)
Definition flat (l : list (nat * nat)) : list nat := flat_map (fun p => [fst p; snd p]) l.
Lemma flat_length l : length (flat l) = 2 * length l.
Proof. unfold flat. induction l as [|p l IH]; [reflexivity|]. cbn [flat_map app length]. lia. Qed.
Lemma flat_nth l k : nth (2 * k) (flat l) 0 = fst (nth k l (0, 0)) /\ nth (2 * k + 1) (flat l) 0 = snd (nth k l (0, 0)).
Proof.
  revert k. induction l as [|[a b] l IH]; intros k; [destruct k; cbn; rewrite ?Nat.add_0_r; split; try reflexivity; destruct (k + S k + 1); reflexivity|].
  destruct k as [|k]; [split; reflexivity|]. replace (2 * S k) with (S (S (2 * k))) by lia. cbn [flat flat_map app fst snd nth]. apply IH.
Qed.
Lemma flat_ex n i : length i = 2 * n -> exists l, i = flat l /\ length l = n.
Proof.
  revert i. induction n as [|n IH]; intros i H; [destruct i; [|discriminate]; now exists []|].
  destruct i as [|a [|b i]]; try (cbn in H; lia). destruct (IH i) as (l & -> & E); [cbn in H; lia|]. exists ((a, b) :: l). split; [reflexivity | cbn; lia].
Qed.
Lemma flat_inj l l' : flat l = flat l' -> l = l'.
Proof. revert l'. induction l as [|[a b] l IH]; intros [|[c d] l'] H; cbn in *; try discriminate; [reflexivity|]. injection H as -> -> H. f_equal. now apply IH. Qed.

Lemma orb_perm_index p x : index_of (2 * x) (orb_perm p) = 2 * index_of x p /\ (In x p -> index_of (2 * x + 1) (orb_perm p) = 2 * index_of x p + 1).
Proof.
  induction p as [|y p [I1 I2]]; [split; [reflexivity | easy]|].
  change (orb_perm (y :: p)) with (2 * y :: 2 * y + 1 :: orb_perm p). cbn [index_of]. split.
  - destruct (Nat.eqb_spec x y); [subst; now rewrite Nat.eqb_refl|].
    destruct (Nat.eqb_spec (2 * x) (2 * y)); [lia|]. destruct (Nat.eqb_spec (2 * x) (2 * y + 1)); [lia|]. lia.
  - intros H. destruct (Nat.eqb_spec (2 * x + 1) (2 * y)); [lia|].
    destruct (Nat.eqb_spec x y); [subst; now rewrite Nat.eqb_refl|]. destruct (Nat.eqb_spec (2 * x + 1) (2 * y + 1)); [lia|].
    destruct H as [->|H]; [contradiction|]. rewrite I2 by exact H. lia.
Qed.
Lemma orb_perm_length p : length (orb_perm p) = 2 * length p.
Proof. unfold orb_perm. induction p as [|x p IH]; [reflexivity|]. cbn [flat_map app length]. lia. Qed.
Lemma map_seq_pairs {X} (f : nat -> X) n s : map f (seq (2 * s) (2 * n)) = flat_map (fun k => [f (2 * k); f (2 * k + 1)]) (seq s n).
Proof.
  revert s. induction n as [|n IH]; intros s; [reflexivity|]. replace (2 * S n) with (S (S (2 * n))) by lia. cbn [seq map flat_map app].
  f_equal. f_equal; [f_equal; lia|]. rewrite <- IH. f_equal. f_equal. lia.
Qed.
Lemma flat_map_of {X} (f : X -> nat * nat) l : flat (map f l) = flat_map (fun k => [fst (f k); snd (f k)]) l.
Proof. unfold flat. rewrite flat_map_concat_map, map_map, flat_map_concat_map. reflexivity. Qed.
Lemma flat_map_ext_in {X Y} (f g : X -> list Y) l : (forall x, In x l -> f x = g x) -> flat_map f l = flat_map g l.
Proof. induction l as [|x l IH]; intros H; [reflexivity|]. cbn. rewrite (H x), IH; auto; [intros; apply H|]; cbn; auto. Qed.
(** transposition acts on the list of pairs *)
Definition gather (p : list nat) (l : list (nat * nat)) : list (nat * nat) := map (fun k => nth k l (0, 0)) p.
Lemma transpose_pairs n p t l : is_perm n p -> length l = n -> transpose (orb_perm p) t (flat l) = t (flat (gather (invp n p) l)).
Proof.
  intros H Hl. destruct (is_perm_facts _ _ H) as (L & D & M). unfold transpose. f_equal. rewrite orb_perm_length, L.
  rewrite (map_seq_pairs _ n 0). unfold gather, invp. rewrite map_map, flat_map_of.
  apply flat_map_ext_in. intros k Hk. apply in_seq in Hk. destruct (orb_perm_index p k) as [I1 I2]. rewrite I1, I2 by (apply M; lia).
  destruct (flat_nth l (index_of k p)) as [-> ->]. reflexivity.
Qed.
Definition swap (p : nat * nat) := (snd p, fst p).
Lemma conj_perm_index n s x : s <= x < s + n -> index_of (2 * x) (flat_map (fun x => [2 * x + 1; 2 * x]) (seq s n)) = 2 * (x - s) + 1
  /\ index_of (2 * x + 1) (flat_map (fun x => [2 * x + 1; 2 * x]) (seq s n)) = 2 * (x - s).
Proof.
  revert s. induction n as [|n IH]; intros s H; [lia|]. cbn [seq flat_map app index_of].
  destruct (Nat.eq_dec x s) as [->|Hn].
  - rewrite Nat.sub_diag. destruct (Nat.eqb_spec (2 * s) (2 * s + 1)); [lia|]. rewrite !Nat.eqb_refl. split; reflexivity.
  - destruct (IH (S s)) as [I1 I2]; [lia|].
    destruct (Nat.eqb_spec (2 * x) (2 * s + 1)); [lia|]. destruct (Nat.eqb_spec (2 * x) (2 * s)); [lia|].
    destruct (Nat.eqb_spec (2 * x + 1) (2 * s + 1)); [lia|]. destruct (Nat.eqb_spec (2 * x + 1) (2 * s)); [lia|].
    rewrite I1, I2. split; lia.
Qed.
Lemma conj_perm_length n s : length (flat_map (fun x => [2 * x + 1; 2 * x]) (seq s n)) = 2 * n.
Proof. revert s. induction n as [|n IH]; intros s; [reflexivity|]. cbn [seq flat_map app length]. rewrite IH. lia. Qed.
Lemma transpose_conj n t l : length l = n -> transpose (conj_perm n) t (flat l) = t (flat (map swap l)).
Proof.
  intros Hl. unfold transpose, conj_perm. f_equal. rewrite conj_perm_length. rewrite (map_seq_pairs _ n 0).
  assert (l = map (fun k => nth k l (0, 0)) (seq 0 n)) as El.
  { apply (nth_ext _ _ (0, 0) (0, 0)); [now rewrite map_length, seq_length|]. intros k Hk.
    rewrite (nth_indep (map _ _) _ ((fun k => nth k l (0, 0)) 0)) by (rewrite map_length, seq_length; lia).
    rewrite (map_nth (fun k => nth k l (0, 0))). now rewrite seq_nth by lia. }
  transitivity (flat (map swap (map (fun k => nth k l (0, 0)) (seq 0 n)))); [|now rewrite <- El].
  rewrite map_map, flat_map_of. apply flat_map_ext_in. intros k Hk. apply in_seq in Hk. destruct (conj_perm_index n 0 k) as [-> ->]; [lia|].
  rewrite Nat.sub_0_r. destruct (flat_nth l k) as [E1 E2]. rewrite E1, E2. reflexivity.
Qed.
Lemma gather_self n l : length l = n -> gather (seq 0 n) l = l.
Proof.
  intros <-. unfold gather. apply (nth_ext _ _ (0, 0) (0, 0)); [now rewrite map_length, seq_length|]. intros k Hk. rewrite map_length, seq_length in Hk.
  rewrite nth_indep with (d' := (fun k => nth k l (0, 0)) 0) by (now rewrite map_length, seq_length).
  rewrite (map_nth (fun k => nth k l (0, 0))). now rewrite seq_nth.
Qed.
Lemma gather_perm l l' : Permutation l l' -> exists q, is_perm (length l) q /\ l' = gather q l.
Proof.
  intros H. rewrite <- (gather_self _ l eq_refl) in H. unfold gather in H. apply Permutation_sym, Permutation_map_inv in H as (q & -> & Hq).
  exists q. split; [exact Hq | reflexivity].
Qed.

(** ** Sums *)
Fixpoint qsum (l : list Q) : Q := match l with [] => 0%Q | x :: l => (x + qsum l)%Q end.
Lemma qsum_perm l l' : Permutation l l' -> (qsum l == qsum l')%Q.
Proof. induction 1; cbn; [reflexivity | now rewrite IHPermutation | ring | now transitivity (qsum l')]. Qed.
Lemma qsum_app l l' : (qsum (l ++ l') == qsum l + qsum l')%Q.
Proof. induction l as [|x l IH]; cbn; [ring | rewrite IH; ring]. Qed.
Lemma qsum_ext {X} (f g : X -> Q) l : (forall x, In x l -> f x == g x)%Q -> (qsum (map f l) == qsum (map g l))%Q.
Proof. induction l as [|x l IH]; intros H; cbn; [reflexivity|]. rewrite IH by (intros; apply H; now right). rewrite (H x) by now left. reflexivity. Qed.
Lemma qsum_const {X} (c : Q) (l : list X) : (qsum (map (fun _ => c) l) == inject_Z (Z.of_nat (length l)) * c)%Q.
Proof.
  induction l as [|x l IH]; [cbn; ring|]. cbn [map qsum]. rewrite IH. cbn [length]. rewrite Nat2Z.inj_succ. unfold Z.succ. rewrite inject_Z_plus. ring.
Qed.
Lemma qsum_add {X} (f g : X -> Q) l : (qsum (map (fun x => f x + g x) l) == qsum (map f l) + qsum (map g l))%Q.
Proof. induction l as [|x l IH]; cbn; [ring | rewrite IH; ring]. Qed.
Lemma qsum_swap {X Y} (f : X -> Y -> Q) l l' : (qsum (map (fun x => qsum (map (f x) l')) l) == qsum (map (fun y => qsum (map (fun x => f x y) l)) l'))%Q.
Proof.
  induction l as [|x l IH]; cbn [map qsum].
  - induction l' as [|y l' IH']; cbn; [reflexivity|]. rewrite <- IH'. ring.
  - rewrite IH, <- qsum_add. reflexivity.
Qed.
Lemma qsum_scale {X} (f : X -> Q) c l : (qsum (map (fun x => f x * c) l) == qsum (map f l) * c)%Q.
Proof. induction l as [|x l IH]; cbn; [ring | rewrite IH; ring]. Qed.
Lemma sumT_eq l i : (sumT l i == qsum (map (fun t : tensor => t i) l))%Q.
Proof. induction l as [|t l IH]; [reflexivity|]. cbn. now rewrite IH. Qed.
Lemma fact_pos n : (0 < factorial n)%Z.
Proof. induction n as [|n IH]; [reflexivity|]. cbn [factorial]. lia. Qed.

(** The symmetrised tensor is the average over all rearrangements of the index pairs *)
Lemma symmetrize_elec_avg n t l : length l = n ->
  (symmetrize_elec n t (flat l) == qsum (map (fun l' => t (flat l')) (perms_ n l)) / inject_Z (factorial n))%Q.
Proof.
  intros Hl. unfold symmetrize_elec. apply Qmult_comp; [|reflexivity]. rewrite sumT_eq, map_map.
  destruct (perms_hd n (seq 0 n)) as [r Hr]; [apply seq_length|]. unfold permutations. rewrite Hr. cbn [tl].
  assert (P : forall p, In p (permutations n) <-> is_perm n p) by (intros p; apply perms_in, seq_length).
  transitivity (qsum (map (fun p => t (flat (gather (invp n p) l))) (permutations n))).
  - unfold permutations. rewrite Hr. cbn [map qsum]. apply Qplus_comp.
    + assert (invp n (seq 0 n) = seq 0 n) as ->; [|now rewrite gather_self].
      apply (nth_ext _ _ 0 0); [unfold invp; now rewrite map_length|]. intros k Hk. unfold invp at 1 in Hk. rewrite map_length, seq_length in Hk.
      rewrite invp_nth by exact Hk. rewrite seq_nth by exact Hk. cbn. replace k with (nth k (seq 0 n) 0) at 1 by (now rewrite seq_nth).
      apply nth_index_of; [apply seq_NoDup | now rewrite seq_length].
    + apply qsum_ext. intros p Hp. rewrite (transpose_pairs n); [reflexivity | | exact Hl].
      apply P. unfold permutations. rewrite Hr. now right.
  - rewrite <- (map_map (invp n) (fun p => t (flat (gather p l)))).
    rewrite (qsum_perm _ _ (Permutation_map (fun p => t (flat (gather p l))) (invp_permutations n))).
    transitivity (qsum (map (fun l' => t (flat l')) (perms_ n (gather (seq 0 n) l)))); [|now rewrite gather_self].
    unfold gather at 2. rewrite perms_map, map_map. reflexivity.
Qed.
