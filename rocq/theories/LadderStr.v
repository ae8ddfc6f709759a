(** The tables of strings and the loops of contract_sladder. *)
From Coq Require Import List Bool Arith ZArith Reals Lia Lra.
From Verif Require Import Base Star DetModel DetFacts HalfInner LsisUpdModel LadderModel.
Import ListNotations.
Local Open Scope nat_scope.

Lemma put_length i b s : length (put i b s) = length s.
Proof. unfold put. revert i. induction s as [|x s IH]; intros [|i]; cbn [upd length]; [reflexivity..|]. rewrite IH. reflexivity. Qed.
Lemma occ_put i b s : i < length s -> occ (put i b s) i = b.
Proof. unfold occ, put. revert i. induction s as [|x s IH]; intros [|i] H; cbn [upd length nth] in *; try lia; [reflexivity|]. apply IH. lia. Qed.
Lemma put_put i b c s : put i b (put i c s) = put i b s.
Proof. unfold put. revert i. induction s as [|x s IH]; intros [|i]; cbn [upd]; [reflexivity..|]. rewrite IH. reflexivity. Qed.
Lemma put_occ i s : put i (occ s i) s = s.
Proof. unfold put, occ. revert i. induction s as [|x s IH]; intros [|i]; cbn [upd nth]; [reflexivity..|]. rewrite IH. reflexivity. Qed.
Lemma above_put i b s : n_above (put i b s) i = n_above s i.
Proof. unfold n_above, put. f_equal. revert i. induction s as [|x s IH]; intros [|i]; cbn [upd skipn]; try reflexivity. apply IH. Qed.
Lemma count_put i b s : i < length s -> count (put i b s) + b2n (occ s i) = count s + b2n b.
Proof.
  unfold put, occ. revert i. induction s as [|x s IH]; intros [|i] H; cbn [upd length nth count] in *; try lia; [destruct x, b; cbn; lia|].
  specialize (IH i ltac:(lia)). lia.
Qed.

Lemma pick_seq (g : nat -> nat * nat * nat * Z) (des : bool) (p : nat -> bool) (n i : nat) :
  (forall j, (if des then snd (fst (fst (g j))) else fst (fst (fst (g j)))) = j) ->
  fold_left (fun v row => let '(o0, o1, ad, sg) := row in if i =? (if des then o1 else o0) then (ad, sg) else v) (map g (filter p (seq 0 n))) (0, 0%Z) =
  if (i <? n) && p i then (snd (fst (g i)), snd (g i)) else (0, 0%Z).
Proof.
  intros Hg. assert (E : forall l v, fold_left (fun v row => let '(o0, o1, ad, sg) := row in if i =? (if des then o1 else o0) then (ad, sg) else v) (map g l) v =
    if existsb (Nat.eqb i) l then (snd (fst (g i)), snd (g i)) else v).
  { induction l as [|j l IH]; intros v; [reflexivity|]. cbn [map fold_left existsb]. specialize (Hg j). destruct (g j) as [[[o0 o1] ad] sg] eqn:Eg. cbn [fst snd] in Hg.
    rewrite IH. rewrite Hg. destruct (Nat.eqb_spec i j) as [->|Hij]; cbn [orb]; [|reflexivity]. rewrite Eg. cbn [fst snd]. destruct (existsb (Nat.eqb j) l); reflexivity. }
  rewrite E. replace (existsb (Nat.eqb i) (filter p (seq 0 n))) with ((i <? n) && p i); [reflexivity|].
  apply eq_iff_eq_true. rewrite andb_true_iff, existsb_exists, Nat.ltb_lt. split.
  - intros [H1 H2]. exists i. rewrite filter_In, in_seq, Nat.eqb_refl. repeat split; auto; lia.
  - intros [x [H1 H2]]. apply Nat.eqb_eq in H2. subst x. apply filter_In in H1 as [H1 H3]. apply in_seq in H1. split; [lia|exact H3].
Qed.

(** the entries of the maps *)
Definition entry (n k : nat) (des : bool) : nat -> nat -> nat * Z := if des then gen_map (gen_des_str_index n k) true else gen_map (gen_cre_str_index n k) false.
Definition kt (k : nat) (des : bool) : nat := if des then k - 1 else k + 1.
Lemma entry_at n k des s i : length s = n -> count s = k -> i < n ->
  entry n k des (addr n k s) i = if Bool.eqb (occ s i) des then (addr n (kt k des) (put i (negb des) s), sgnZ (n_above s i)) else (0, 0%Z).
Proof.
  intros H1 H2 Hi. pose proof (addr_nth n k s H1 H2) as E.
  assert (N : forall {X} (f : det -> list X), nth (addr n k s) (map f (strs n k)) [] = f s).
  { intros X f. apply nth_error_nth. apply map_nth_error. exact E. }
  unfold entry, kt. destruct des; unfold gen_map, gen_des_str_index, gen_cre_str_index; rewrite N.
  - refine (eq_trans (pick_seq (fun i => (0, i, addr n (k - 1) (put i false s), sgnZ (n_above s i))) true (occ s) n i (fun _ => eq_refl)) _).
    apply Nat.ltb_lt in Hi. rewrite Hi. cbn [andb fst snd negb]. destruct (occ s i); reflexivity.
  - refine (eq_trans (pick_seq (fun i => (i, 0, addr n (k + 1) (put i true s), sgnZ (n_above s i))) false (fun i => negb (occ s i)) n i (fun _ => eq_refl)) _). apply Nat.ltb_lt in Hi. rewrite Hi. cbn [andb fst snd negb]. destruct (occ s i); reflexivity.
Qed.
Lemma sgnZ_nz n : sgnZ n <> 0%Z. Proof. unfold sgnZ. destruct (Nat.odd n); discriminate. Qed.

Local Open Scope R_scope.
Notation RS := (bsum (K := Rs)) (only parsing).
Lemma RS_cons {X} (x : X) l (f : X -> R) : RS (x :: l) f = f x + RS l f. Proof. reflexivity. Qed.
Lemma takebak_eq a idx idy : forall o x y, takebak_2d o a idx idy x y = o x y + RS idx (fun p => RS idy (fun q => if ((x =? snd p) && (y =? snd q))%nat then a (fst p) (fst q) else 0)).
Proof.
  assert (In1 : forall k u idy (o : nat -> nat -> R) x y, fold_left (fun o q => add_at u (snd q) (a k (fst q)) o) idy o x y = o x y + RS idy (fun q => if ((x =? u) && (y =? snd q))%nat then a k (fst q) else 0)).
  { intros k u l. induction l as [|q l IH]; intros o x y; [cbn; lra|]. cbn [fold_left]. rewrite IH, RS_cons. unfold add_at. destruct ((x =? u) && (y =? snd q))%nat; lra. }
  unfold takebak_2d. induction idx as [|p l IH]; intros o x y; [cbn; lra|]. cbn [fold_left]. rewrite IH, RS_cons, In1. lra.
Qed.
Lemma RS_filter {X} (p : X -> bool) l (f : X -> R) : RS (filter p l) f = RS l (fun x => if p x then f x else 0).
Proof. induction l as [|x l IH]; [reflexivity|]. cbn [filter]. rewrite RS_cons. destruct (p x); rewrite ?RS_cons, IH; lra. Qed.
Lemma fold_acc (step : (nat -> nat -> R) -> nat -> nat -> nat -> R) (F : nat -> nat -> nat -> R) l : (forall o i x y, step o i x y = o x y + F i x y) ->
  forall o x y, fold_left step l o x y = o x y + RS l (fun i => F i x y).
Proof. intros H. induction l as [|i l IH]; intros o x y; [cbn; lra|]. cbn [fold_left]. rewrite IH, H, RS_cons. lra. Qed.

(** the only string that leads to [t] *)
Lemma one_source n k des i t (f : det -> R) : (i < n)%nat -> length t = n -> count t = kt k des -> (if des then 1 <= k else True)%nat ->
  RS (strs n k) (fun s => if (Bool.eqb (occ s i) des && (addr n (kt k des) t =? addr n (kt k des) (put i (negb des) s)))%bool then f s else 0) =
  if Bool.eqb (occ t i) des then 0 else f (put i des t).
Proof.
  intros Hi Ht Hc Hk. assert (P : forall s, In s (strs n k) -> occ s i = des -> length (put i (negb des) s) = n /\ count (put i (negb des) s) = kt k des).
  { intros s Hs Ho. apply in_strs in Hs as [H1 H2]. split; [rewrite put_length; exact H1|]. pose proof (count_put i (negb des) s ltac:(lia)) as Q. rewrite Ho in Q. unfold kt. destruct des; cbn in *; lia. }
  destruct (Bool.eqb_spec (occ t i) des) as [E|E].
  - apply (@bsum_0 Rs). intros s Hs. destruct (Bool.eqb_spec (occ s i) des) as [Eo|Eo]; [|reflexivity]. cbn [andb]. destruct (P s Hs Eo) as [P1 P2].
    match goal with |- context [(?a =? ?b)%nat] => destruct (Nat.eqb_spec a b) as [Ea|Ea] end; [|reflexivity]. exfalso.
    apply addr_inj in Ea; auto. rewrite Ea, occ_put in E by (apply in_strs in Hs as [H1 _]; lia). destruct des; discriminate.
  - assert (Eo : occ t i = negb des) by (destruct (occ t i), des; auto; now elim E).
    assert (Hin : In (put i des t) (strs n k)).
    { apply in_strs. split; [rewrite put_length; exact Ht|]. pose proof (count_put i des t ltac:(lia)) as Q. rewrite Eo in Q. unfold kt in Hc. destruct des; cbn in *; lia. }
    etransitivity; [apply (@bsum_single Rs _ _ _ (put i des t) (strs_NoDup n k) Hin)|].
    + intros s Hs Hne. destruct (Bool.eqb_spec (occ s i) des) as [Es|Es]; [|reflexivity]. cbn [andb]. destruct (P s Hs Es) as [P1 P2].
      match goal with |- context [(?a =? ?b)%nat] => destruct (Nat.eqb_spec a b) as [Ea|Ea] end; [|reflexivity]. exfalso.
      apply addr_inj in Ea; auto. apply Hne. rewrite Ea, put_put, <- Es, put_occ. reflexivity.
    + cbv beta. rewrite occ_put by lia. rewrite put_put, <- Eo, put_occ, Nat.eqb_refl, Bool.eqb_reflx. reflexivity.
Qed.
Lemma one_axis n k des i t (f : nat -> Z -> R) : (i < n)%nat -> length t = n -> count t = kt k des -> (if des then 1 <= k else True)%nat ->
  RS (map (fun a => (a, fst (entry n k des a i))) (filter (fun a => negb (snd (entry n k des a i) =? 0)%Z) (seq 0 (num_strings n k))))
    (fun p => if (addr n (kt k des) t =? snd p)%nat then f (fst p) (snd (entry n k des (fst p) i)) else 0) =
  if Bool.eqb (occ t i) des then 0 else f (addr n k (put i des t)) (sgnZ (n_above t i)).
Proof.
  intros Hi Ht Hc Hk. etransitivity; [apply (@bsum_map Rs)|]. rewrite RS_filter.
  etransitivity; [symmetry; apply (@bsum_strs Rs n k)|]. cbn [fst snd].
  etransitivity; [|etransitivity; [apply (one_source n k des i t (fun s => f (addr n k s) (sgnZ (n_above s i))) Hi Ht Hc Hk)|]].
  - apply (@bsum_ext Rs). intros s Hs. apply in_strs in Hs as [H1 H2]. rewrite entry_at by auto.
    destruct (Bool.eqb (occ s i) des); cbn [fst snd andb]; [|reflexivity]. pose proof (sgnZ_nz (n_above s i)) as Hz. apply Z.eqb_neq in Hz. rewrite Hz. cbn [negb]. reflexivity.
  - rewrite above_put. reflexivity.
Qed.

Lemma two_axes n ka kb (da db : bool) i A B (c : nat -> nat -> R) (sg : R) : (i < n)%nat -> length A = n -> length B = n -> count A = kt ka da -> count B = kt kb db ->
  (if da then 1 <= ka else True)%nat -> (if db then 1 <= kb else True)%nat ->
  RS (map (fun a => (a, fst (entry n ka da a i))) (filter (fun a => negb (snd (entry n ka da a i) =? 0)%Z) (seq 0 (num_strings n ka)))) (fun p =>
  RS (map (fun a => (a, fst (entry n kb db a i))) (filter (fun a => negb (snd (entry n kb db a i) =? 0)%Z) (seq 0 (num_strings n kb)))) (fun q =>
    if ((addr n (kt ka da) A =? snd p) && (addr n (kt kb db) B =? snd q))%nat then c (fst p) (fst q) * IZR (snd (entry n ka da (fst p) i)) * IZR (snd (entry n kb db (fst q) i)) * sg else 0)) =
  if (Bool.eqb (occ A i) da || Bool.eqb (occ B i) db)%bool then 0
  else c (addr n ka (put i da A)) (addr n kb (put i db B)) * IZR (sgnZ (n_above A i)) * IZR (sgnZ (n_above B i)) * sg.
Proof.
  intros Hi HA HB CA CB KA KB.
  etransitivity; [|etransitivity; [apply (one_axis n ka da i A (fun a z => if Bool.eqb (occ B i) db then 0 else c a (addr n kb (put i db B)) * IZR z * IZR (sgnZ (n_above B i)) * sg) Hi HA CA KA)|]].
  - apply (@bsum_ext Rs). intros p _. destruct (addr n (kt ka da) A =? snd p)%nat; cbn [andb].
    + apply (one_axis n kb db i B (fun b z => c (fst p) b * IZR (snd (entry n ka da (fst p) i)) * IZR z * sg) Hi HB CB KB).
    + apply (@bsum_0 Rs). reflexivity.
  - cbv beta. destruct (Bool.eqb (occ A i) da), (Bool.eqb (occ B i) db); reflexivity.
Qed.

(** the reshaped array of the right shape is the array *)
Lemma reshape_same r k x : a_r x = r -> a_c x = k -> exists y, reshape2 r k x = Ok y /\ a_r y = r /\ a_c y = k /\ forall i j, (j < k)%nat -> a_el y i j = a_el x i j.
Proof.
  intros <- <-. unfold reshape2. rewrite Nat.eqb_refl. eexists. split; [reflexivity|]. cbn [a_r a_c a_el]. repeat split; auto. intros i j Hj.
  rewrite Nat.add_comm, Nat.div_add, Nat.div_small, Nat.add_0_l by lia. rewrite Nat.mod_add, Nat.mod_small by lia. reflexivity.
Qed.

Definition vacuum (n : nat) (ne : nat * nat) (raise : bool) : bool := if raise then ((fst ne =? n) || (snd ne =? 0))%nat else ((fst ne =? 0) || (snd ne =? n))%nat.
Definition ne1 (ne : nat * nat) (raise : bool) : nat * nat := (kt (fst ne) (negb raise), kt (snd ne) raise).
Lemma contract_spec c n ne raise : a_r c = num_strings n (fst ne) -> a_c c = num_strings n (snd ne) ->
  exists c1, contract_sladder c n ne raise = Ok c1 /\
    if vacuum n ne raise then a_r c1 = 0%nat /\ a_c c1 = 0%nat
    else a_r c1 = num_strings n (fst (ne1 ne raise)) /\ a_c c1 = num_strings n (snd (ne1 ne raise)) /\
      forall A B, length A = n -> length B = n -> count A = fst (ne1 ne raise) -> count B = snd (ne1 ne raise) ->
        a_el c1 (addr n (fst (ne1 ne raise)) A) (addr n (snd (ne1 ne raise)) B) =
        RS (seq 0 n) (fun i => if (Bool.eqb (occ A i) (negb raise) || Bool.eqb (occ B i) raise)%bool then 0 else
          a_el c (addr n (fst ne) (put i (negb raise) A)) (addr n (snd ne) (put i raise B)) * IZR (sgnZ (n_above A i)) * IZR (sgnZ (n_above B i)) * IZR (sgnZ (if raise then fst ne else fst ne - 1))).
Proof.
  intros Hr Hc. destruct ne as [na nb]. cbn [fst snd] in *. unfold contract_sladder. destruct (reshape_same _ _ c Hr Hc) as (y & Ey & Y1 & Y2 & Y3). rewrite Ey. cbn [bind].
  change (if raise then (na =? n)%nat || (nb =? 0)%nat else (na =? 0)%nat || (nb =? n)%nat)%bool with (vacuum n (na, nb) raise).
  destruct (vacuum n (na, nb) raise) eqn:Ev; [eexists; split; [reflexivity|split; reflexivity]|]. eexists. split; [reflexivity|]. cbn [a_r a_c a_el].
  unfold vacuum in Ev. cbn [fst snd] in Ev.
  split; [unfold ne1, kt; cbn [fst snd]; destruct raise; reflexivity|]. split; [unfold ne1, kt; cbn [fst snd]; destruct raise; reflexivity|].
  intros A B HA HB CA CB.
  replace (if raise then gen_map (gen_cre_str_index n na) false else gen_map (gen_des_str_index n na) true) with (entry n na (negb raise)) by (unfold entry; destruct raise; reflexivity).
  replace (if raise then gen_map (gen_des_str_index n nb) true else gen_map (gen_cre_str_index n nb) false) with (entry n nb raise) by (unfold entry; destruct raise; reflexivity).
  erewrite fold_acc; [|intros; apply takebak_eq]. rewrite Rplus_0_l. apply (@bsum_ext Rs). intros i Hi. apply in_seq in Hi.
  unfold ne1 in *. cbn [fst snd] in *.
  etransitivity; [apply (two_axes n na nb (negb raise) raise i A B (a_el y) (IZR (sgnZ (if raise then na else na - 1))))|].
  1-5: (lia || assumption).
  1, 2: destruct raise; apply orb_false_iff in Ev as [E1 E2]; apply Nat.eqb_neq in E1, E2; cbn; (exact I || lia).
  destruct (Bool.eqb_spec (occ A i) (negb raise)) as [E|Ea]; cbn [orb]; [reflexivity|]. destruct (Bool.eqb_spec (occ B i) raise) as [E|Eb]; [reflexivity|].
  rewrite Y3; [reflexivity|]. apply addr_lt; [now rewrite put_length|].
  pose proof (count_put i raise B ltac:(lia)) as Q. unfold kt in CB.
  destruct raise; apply orb_false_iff in Ev as [E1 E2]; apply Nat.eqb_neq in E1, E2; destruct (occ B i); cbn in *; (lia || now elim Eb).
Qed.
