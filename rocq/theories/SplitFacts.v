(** Stable sorts one column after the other, and lists split by a key. *)
From Coq Require Import List Bool Arith ZArith Lia Sorting.Permutation Sorting.Sorted.
From Verif Require Import Base BaseFacts SplitModel.
Import ListNotations.
Local Open Scope nat_scope.

Lemma row_eqb_spec a b : row_eqb a b = true <-> a = b.
Proof. unfold row_eqb. destruct (list_eq_dec Z.eq_dec a b); split; intros; congruence. Qed.
Lemma np_unique_nodup l : NoDup (np_unique l).
Proof. apply sorted_lexlt_NoDup, np_unique_sorted. Qed.

(** *** sorting *)
Section Sort.
Context {A : Type}.
Lemma ins_perm (k : A -> Z) x l : Permutation (ins_k k x l) (x :: l).
Proof. induction l as [|y r IH]; cbn [ins_k]; [reflexivity|]. destruct (k x <=? k y)%Z; [reflexivity|]. rewrite IH. apply perm_swap. Qed.
Lemma sort_perm (k : A -> Z) l : Permutation (sort_k k l) l.
Proof. induction l as [|x l IH]; cbn [sort_k fold_right]; [reflexivity|]. fold (sort_k k l). rewrite ins_perm, IH. reflexivity. Qed.
Lemma sort_by_perm nf (rows : A -> row) l : Permutation (sort_by nf rows l) l.
Proof. unfold sort_by. revert l. induction (seq 0 nf) as [|f fs IH]; intros l; cbn [fold_left]; [reflexivity|]. rewrite IH. apply sort_perm. Qed.
Lemma ins_map {B} (g : A -> B) (k : B -> Z) x l : map g (ins_k (fun a => k (g a)) x l) = ins_k k (g x) (map g l).
Proof. induction l as [|y r IH]; cbn [ins_k map]; [reflexivity|]. destruct (k (g x) <=? k (g y))%Z; cbn [map]; [reflexivity|]. now rewrite IH. Qed.
Lemma sort_map {B} (g : A -> B) (k : B -> Z) l : map g (sort_k (fun a => k (g a)) l) = sort_k k (map g l).
Proof. induction l as [|x l IH]; [reflexivity|]. cbn [sort_k fold_right map]. change (fold_right (ins_k (fun a => k (g a))) [] l) with (sort_k (fun a => k (g a)) l). rewrite ins_map, IH. reflexivity. Qed.
Lemma sort_by_map nf (rows : A -> row) l : map rows (sort_by nf rows l) = sort_by nf (fun r => r) (map rows l).
Proof. unfold sort_by. revert l. induction (seq 0 nf) as [|f fs IH]; intros l; cbn [fold_left]; [reflexivity|]. rewrite IH. f_equal. apply (sort_map rows (fun r => nth f r 0%Z)). Qed.
End Sort.

(** columns below [k], the last one first *)
Fixpoint before (k : nat) (x y : row) : Prop :=
  match k with O => True | S j => (nth j x 0 < nth j y 0)%Z \/ nth j x 0%Z = nth j y 0%Z /\ before j x y end.
Lemma before_key j x y : before (S j) x y -> (nth j x 0 <= nth j y 0)%Z.
Proof. cbn [before]. lia. Qed.
Section Stable.
Context {A : Type} (rows : A -> row).
Lemma ins_sorted j x l : StronglySorted (fun a b => before (S j) (rows a) (rows b)) l -> Forall (fun y => before j (rows x) (rows y)) l ->
  StronglySorted (fun a b => before (S j) (rows a) (rows b)) (ins_k (fun a => nth j (rows a) 0%Z) x l).
Proof.
  induction l as [|y r IH]; intros HS HF; cbn [ins_k]; [repeat constructor|]. inversion HS as [|? ? HSr HFr]; subst. inversion HF as [|? ? Hy HFx]; subst. destruct (Z.leb_spec (nth j (rows x) 0%Z) (nth j (rows y) 0%Z)) as [L|L].
  - constructor; [exact HS|]. constructor.
    + cbn [before]. destruct (Z.eq_dec (nth j (rows x) 0%Z) (nth j (rows y) 0%Z)); [right; auto|left; lia].
    + rewrite Forall_forall in *. intros z Hz. pose proof (before_key _ _ _ (HFr z Hz)). cbn [before]. destruct (Z.eq_dec (nth j (rows x) 0%Z) (nth j (rows z) 0%Z)); [right; auto|left; lia].
  - constructor; [apply IH; assumption|]. rewrite Forall_forall in *. intros z Hz. apply (Permutation_in _ (ins_perm _ _ _)) in Hz. destruct Hz as [<-|Hz]; [left; lia|apply HFr, Hz].
Qed.
Lemma sort_sorted j l : StronglySorted (fun a b => before j (rows a) (rows b)) l -> StronglySorted (fun a b => before (S j) (rows a) (rows b)) (sort_k (fun a => nth j (rows a) 0%Z) l).
Proof.
  induction l as [|x l IH]; intros HS; [constructor|]. inversion HS as [|? ? HSl HF]; subst. cbn [sort_k fold_right]. apply ins_sorted; [apply IH, HSl|]. fold (sort_k (fun a => nth j (rows a) 0%Z) l). rewrite Forall_forall in *. intros y Hy. apply HF. exact (Permutation_in _ (sort_perm _ _) Hy).
Qed.
Lemma sort_by_sorted nf l : StronglySorted (fun a b => before nf (rows a) (rows b)) (sort_by nf rows l).
Proof.
  induction nf as [|j IH].
  - cbn [sort_by seq fold_left before]. induction l; constructor; [assumption|]. apply Forall_forall. auto.
  - unfold sort_by. rewrite seq_S, fold_left_app. cbn [fold_left]. cbv beta. apply sort_sorted. exact IH.
Qed.
End Stable.
Lemma before_antisym nf x y : length x = nf -> length y = nf -> before nf x y -> before nf y x -> x = y.
Proof.
  intros Lx Ly H1 H2. apply (nth_ext _ _ 0%Z 0%Z); [congruence|]. rewrite Lx. clear Lx Ly. induction nf as [|j IH]; intros f Hf; [lia|]. cbn [before] in H1, H2. assert (E : nth j x 0%Z = nth j y 0%Z) by lia. destruct (Nat.eq_dec f j) as [->|N]; [exact E|]. apply IH; [|  |lia].
  - destruct H1 as [H1|[_ H1]]; [lia|exact H1].
  - destruct H2 as [H2|[_ H2]]; [lia|exact H2].
Qed.
Lemma sorted_perm {A} (R : A -> A -> Prop) l l' : (forall x y, In x l -> In y l -> R x y -> R y x -> x = y) -> StronglySorted R l -> StronglySorted R l' -> Permutation l l' -> l = l'.
Proof.
  revert l'. induction l as [|x l IH]; intros l' HA HS HS' HP; [symmetry; apply Permutation_nil; exact HP|]. destruct l' as [|y l']; [apply Permutation_sym, Permutation_nil in HP; discriminate|].
  inversion HS as [|? ? HSl HF]; subst. inversion HS' as [|? ? HSl' HF']; subst. rewrite Forall_forall in *.
  assert (E : x = y).
  { pose proof (Permutation_in y (Permutation_sym HP) (or_introl eq_refl)) as Hy. pose proof (Permutation_in x HP (or_introl eq_refl)) as Hx. destruct Hy as [->|Hy]; [reflexivity|]. destruct Hx as [->|Hx]; [reflexivity|]. apply HA; [left; reflexivity|right; exact Hy|apply HF, Hy|apply HF', Hx]. }
  subst y. f_equal. apply IH; [|exact HSl|exact HSl'|exact (Permutation_cons_inv HP)]. intros a b Ha Hb. apply HA; right; assumption.
Qed.
Lemma sort_by_canonical {A} nf (rows : A -> row) a b : (forall x, In x a -> length (rows x) = nf) -> Permutation (map rows a) (map rows b) -> map rows (sort_by nf rows a) = map rows (sort_by nf rows b).
Proof.
  intros HL HP. rewrite !sort_by_map. apply (sorted_perm (before nf)).
  - assert (L : forall x, In x (sort_by nf (fun r => r) (map rows a)) -> length x = nf) by (intros x Hx; apply (Permutation_in _ (sort_by_perm _ _ _)), in_map_iff in Hx as (z & <- & Hz); apply HL, Hz). intros x y Hx Hy. apply before_antisym; auto.
  - exact (sort_by_sorted (fun r => r) nf (map rows a)).
  - exact (sort_by_sorted (fun r => r) nf (map rows b)).
  - rewrite !sort_by_perm. exact HP.
Qed.

(** *** splitting *)
Section Key.
Context {A : Type} (key : A -> row).
Lemma filter_or (P Q : A -> bool) l : (forall x, In x l -> P x = true -> Q x = true -> False) -> Permutation (filter (fun x => P x || Q x) l) (filter P l ++ filter Q l).
Proof.
  induction l as [|x l IH]; intros H; [reflexivity|]. cbn [filter]. assert (H' : forall y, In y l -> P y = true -> Q y = true -> False) by (intros y Hy; apply H; right; exact Hy). specialize (IH H').
  destruct (P x) eqn:EP, (Q x) eqn:EQ; cbn [orb app].
  - destruct (H x (or_introl eq_refl) EP EQ).
  - now apply perm_skip.
  - rewrite IH. apply Permutation_middle.
  - exact IH.
Qed.
Lemma split_perm U l : NoDup U -> (forall x, In x l -> In (key x) U) -> Permutation (concat (map (fun u => filter (fun x => row_eqb (key x) u) l) U)) l.
Proof.
  intros HU HI. transitivity (filter (fun x => existsb (row_eqb (key x)) U) l).
  - clear HI. induction U as [|u U IH]; cbn [map concat existsb]; [induction l; [reflexivity|exact IHl]|]. inversion HU as [|? ? Hn HU']; subst. rewrite (IH HU'), (filter_or (fun x => row_eqb (key x) u) (fun x => existsb (row_eqb (key x)) U)); [reflexivity|].
    intros x _ H1 H2. apply row_eqb_spec in H1. apply existsb_exists in H2 as (v & Hv & E). apply row_eqb_spec in E. subst. contradiction.
  - clear HU. induction l as [|x l IH]; [reflexivity|]. cbn [filter]. assert (E : existsb (row_eqb (key x)) U = true) by (apply existsb_exists; exists (key x); split; [apply HI; left; reflexivity|now apply row_eqb_spec]). rewrite E. apply perm_skip. apply IH. intros y Hy. apply HI. right. exact Hy.
Qed.
End Key.
Lemma split_unique {A} (key : A -> row) l : Permutation (concat (map (fun u => filter (fun x => row_eqb (key x) u) l) (np_unique (map key l)))) l.
Proof. apply split_perm; [apply np_unique_nodup|]. intros x Hx. apply np_unique_in, in_map, Hx. Qed.
Lemma concat_perm {A B} (f g : A -> list B) l : (forall x, In x l -> Permutation (f x) (g x)) -> Permutation (concat (map f l)) (concat (map g l)).
Proof. induction l as [|x l IH]; intros H; [reflexivity|]. cbn [map concat]. apply Permutation_app; [apply H; left; reflexivity|]. apply IH. intros y Hy. apply H. right. exact Hy. Qed.
Lemma concat_inj nf (a b : list row) : length a = length b -> (forall x, In x a -> length x = nf) -> (forall x, In x b -> length x = nf) -> concat a = concat b -> a = b.
Proof.
  revert b. induction a as [|x a IH]; intros [|y b] HL Ha Hb HE; try discriminate HL; [reflexivity|]. cbn [concat] in HE. assert (L : length x = length y) by (rewrite (Ha x), (Hb y); [reflexivity|left; reflexivity|left; reflexivity]).
  assert (E : x = y /\ concat a = concat b). { clear -HE L. revert y HE L. induction x as [|u x IH]; intros [|v y] HE L; try discriminate L; [auto|]. cbn [app] in HE. injection HE as -> HE. destruct (IH y HE ltac:(cbn in L; lia)) as [-> ->]. auto. }
  destruct E as [-> E]. f_equal. apply IH; [cbn in HL; lia|intros z Hz; apply Ha; right; exact Hz|intros z Hz; apply Hb; right; exact Hz|exact E].
Qed.
