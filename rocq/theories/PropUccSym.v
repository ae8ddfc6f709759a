(** Property C61: the spin-adapted operators of uccsd_sym1 hold every excitation that conserves the
    number of electrons of each spin exactly once, in the documented order, and unique amplitudes
    reach the generators they belong to. *)
From Coq Require Import List ZArith Arith Bool Lia Sorting.Permutation Sorting.Sorted.
From Verif Require Import Base BaseFacts PropFsucc UccModel UccProofs UccInit UccUniq UccSymModel UccSymFacts UccSymOrder UccSymProofs.
Import ListNotations.

(** Spatial orbitals are numbered below [norb]; the spin orbital [x] is the orbital [x mod norb], with
    spin down if [norb <= x].  [spatial] forgets the spins, [beta] counts the spins down.
    [valid_gen norb (a, i)]: two different sets of spin orbitals with as many electrons of each spin.
    [alike]: the same excitation up to the order of the orbitals and up to its direction. *)

(** position of the only generator that is a given excitation *)
Definition once (gens : list gen) (h : gen) : Prop :=
  exists k g, nth_error gens k = Some g /\ alike g h /\ forall k' g', nth_error gens k' = Some g' -> alike g' h -> k' = k.

Lemma FOP_pos {A} (R : A -> A -> Prop) l : ForallOrdPairs R l -> forall j k x y, nth_error l j = Some x -> nth_error l k = Some y -> j < k -> R x y.
Proof.
  induction 1 as [|z l Hz Hl IH]; intros j k x y Ex Ey L; [destruct j; discriminate|]. destruct k as [|k]; [lia|]. cbn in Ey. destruct j as [|j]; cbn in Ex.
  - injection Ex as ->. rewrite Forall_forall in Hz. apply Hz. now apply nth_error_In in Ey.
  - apply (IH j k); auto. lia.
Qed.
Lemma alike_sym g h : alike g h -> alike h g.
Proof. unfold alike, same_set. intros [[H1 H2]|[H1 H2]]; [left|right]; split; intros q; firstorder. Qed.
Lemma alike_trans g h k : alike g h -> alike h k -> alike g k.
Proof.
  unfold alike, same_set. intros [[H1 H2]|[H1 H2]] [[H3 H4]|[H3 H4]]; [left|right|right|left]; split; intros q;
  rewrite ?H1, ?H2, ?H3, ?H4; reflexivity.
Qed.
Lemma unalike_once gens h : unalike gens -> (exists g, In g gens /\ alike g h) -> once gens h.
Proof.
  intros U (g & I & A). apply In_nth_error in I. destruct I as [k E]. exists k, g. split; [exact E|]. split; [exact A|].
  intros k' g' E' A'. destruct (lt_eq_lt_dec k' k) as [[L|L]|L]; [|exact L|]; exfalso.
  - apply (FOP_pos _ _ U k' k g' g E' E L). apply (alike_trans g' h g A'). now apply alike_sym.
  - apply (FOP_pos _ _ U k k' g g' E E' L). apply (alike_trans g h g' A). now apply alike_sym.
Qed.

(** ** spin cases *)
(** the rows are the ways to give spins to the orbitals, each set of spin orbitals once *)
Theorem C61_spincases norb p : below norb p ->
  (forall l, below (2 * norb) l /\ Permutation (spatial norb l) p <-> exists r m, In (r, m) (spincases norb p) /\ Permutation r l) /\
  (forall j k x y, nth_error (spincases norb p) j = Some x -> nth_error (spincases norb p) k = Some y -> Permutation (fst x) (fst y) -> j = k) /\
  (forall r m, In (r, m) (spincases norb p) -> spatial norb r = p /\ m = beta norb r).
Proof.
  intros B. split; [|split].
  - intros l. split.
    + intros [Bl P]. destruct (sc_find norb p l Bl P) as (j & r & m & E & Q). apply nth_error_In in E. eauto.
    + intros (r & m & I & Q). apply In_nth_error in I. destruct I as [j E]. destruct (sc_row norb p j r m B E) as (B1 & S1 & _). split.
      * unfold below in *. rewrite Forall_forall in *. intros x I. apply B1. now apply (Permutation_in _ (Permutation_sym Q)).
      * rewrite <- S1. symmetry. now apply perm_spatial.
  - intros j k x y. apply sc_pos.
  - intros r m I. apply In_nth_error in I. destruct I as [j E]. destruct (sc_row norb p j r m B E) as (_ & S1 & M). auto.
Qed.
(** in column-major order, for orbitals in descending order *)
Theorem C61_column_major norb p : 0 < norb -> StronglySorted gt p -> map fst (spincases norb p) = column_major norb p.
Proof. intros N S. rewrite spincases_cm by assumption. apply cm_fst. Qed.
(** Finding: np.unique reorders the rows, so that orbitals in ascending order do not come out in the
    column-major order of the documentation. *)
Theorem C61_column_major_refuted : exists norb p, below norb p /\ NoDup p /\ length (spincases norb p) = 2 ^ length p /\ map fst (spincases norb p) <> column_major norb p.
Proof. exists 2, [0; 1]. split; [repeat constructor; lia|]. split; [repeat constructor; cbn; intuition lia|]. split; [reflexivity|]. vm_compute. discriminate. Qed.
Example spincases_ex : spincases 3 [2; 1; 0] = [([2; 1; 0], 0); ([5; 1; 0], 1); ([2; 4; 0], 1); ([5; 4; 0], 2); ([2; 1; 3], 1); ([5; 1; 3], 2); ([2; 4; 3], 2); ([5; 4; 3], 3)].
Proof. reflexivity. Qed.
Example spincases_twice_ex : spincases 3 [1; 1] = [([1; 1], 0); ([4; 1], 1); ([4; 4], 2)].
Proof. reflexivity. Qed.
Example spincases_ascending_ex : map fst (spincases 2 [0; 1]) = [[0; 1]; [0; 3]; [2; 1]; [2; 3]] /\ column_major 2 [0; 1] = [[0; 1]; [2; 1]; [0; 3]; [2; 3]].
Proof. split; reflexivity. Qed.

(** ** the constructor *)
(** whatever it accepts, the generators conserve both spins, differ, and start from zero *)
Theorem C61_sound T t0 norb s2sym aa ii u st : init1 T t0 norb s2sym aa ii = Ok (u, st) ->
  u_norb T u = 2 * norb /\ Forall (valid_gen norb) (u_gens T u) /\ unalike (u_gens T u) /\ u_amps T u = repeat t0 (length (u_gens T u)).
Proof. intros H. apply init1_inv in H. destruct H as (_ & -> & _ & V & U). auto. Qed.
(** so that it is an operator of the class it inherits from *)
Theorem C61_inherits T t0 norb s2sym aa ii u st : init1 T t0 norb s2sym aa ii = Ok (u, st) ->
  init T t0 (2 * norb) (map fst (u_gens T u)) (map snd (u_gens T u)) = Ok u.
Proof.
  intros H. apply init1_inv in H. destruct H as (_ & E & _ & V & U). unfold init. cbv zeta. rewrite !map_length, Nat.eqb_refl. cbn [py_assert].
  assert (C : combine (map fst (u_gens T u)) (map snd (u_gens T u)) = u_gens T u).
  { rewrite combine_map2. transitivity (map (fun x => x) (u_gens T u)); [apply map_ext; now intros []|apply map_id]. }
  rewrite C. rewrite (proj2 (sanity_ok (2 * norb) (u_gens T u))).
  - cbn [bind]. rewrite E at 2 3. cbn [u_gens]. now rewrite E at 1.
  - split; [|exact U]. rewrite Forall_forall in *. intros g I. now apply V.
Qed.
(** every spin case of every excitation it is given, and nothing else *)
Theorem C61_complete T t0 norb s2sym aa ii : Forall (good norb) (combine aa ii) -> ForallOrdPairs (fun g h => ~ palike g h) (combine aa ii) ->
  exists u st, init1 T t0 norb s2sym aa ii = Ok (u, st) /\
    (forall g, In g (u_gens T u) -> exists h, In h (combine aa ii) /\ spatial norb (fst g) = fst h /\ spatial norb (snd g) = snd h) /\
    forall h, valid_gen norb h -> (once (u_gens T u) h <-> exists g, In g (combine aa ii) /\ palike (spatial norb (fst h), spatial norb (snd h)) g).
Proof.
  intros G F. pose proof (init1_ok T t0 norb s2sym aa ii G F) as E. eexists. eexists. split; [exact E|]. cbn [u_gens]. rewrite Forall_forall in G. split.
  - intros g I. apply in_flat_map in I. destruct I as (h & Ih & I). exists h. split; [exact Ih|]. apply (gens_of_in norb h g (G h Ih)) in I. tauto.
  - intros h V. split.
    + intros (k & g & Eg & A & _). apply nth_error_In in Eg. apply in_flat_map in Eg. destruct Eg as (g' & I' & I). exists g'. split; [exact I'|].
      destruct (gens_of_in norb g' g (G g' I') I) as (V' & S1 & S2). apply alike_sym in A. pose proof (palike_spatial norb h g (alike_palike norb h g V V' A)) as P.
      rewrite S1, S2 in P. now destruct g'.
    + intros (g & I & P). apply unalike_once.
      * apply init1_inv in E. cbn [u_gens] in E. tauto.
      * destruct (gens_of_all norb g h (G g I) V P) as (k & Ik & A). exists k. split; [|exact A]. apply in_flat_map. eauto.
Qed.

(** ** unique amplitudes *)
(** every generator is in one row of the table of unique amplitudes *)
Theorem C61_symtab T t0 norb s2sym aa ii u st : init1 T t0 norb s2sym aa ii = Ok (u, st) ->
  concat st = seq 0 (length (u_gens T u)) /\ Forall (fun row => row <> []) st.
Proof. intros H. apply init1_inv in H. destruct H as (_ & -> & -> & _). cbn [u_gens]. split; [apply tab_concat|apply tab_ne]. Qed.
(** set_uniq_amps_ gives every generator of a row the amplitude of the row; get_uniq_amps returns it *)
Theorem C61_amplitudes T t0 norb s2sym aa ii u st x : init1 T t0 norb s2sym aa ii = Ok (u, st) -> length x = length st ->
  (forall j row k, nth_error st j = Some row -> In k row -> nth_error (set_uniq T st x (u_amps T u)) k = nth_error x j) /\
  (st <> [] -> get_uniq_amps T t0 st (set_uniq T st x (u_amps T u)) = Ok x).
Proof.
  intros H L. destruct (C61_symtab T t0 norb s2sym aa ii u st H) as [C N]. destruct (C61_sound T t0 norb s2sym aa ii u st H) as (_ & _ & _ & A).
  assert (P : forall j row k, nth_error st j = Some row -> In k row -> nth_error (set_uniq T st x (u_amps T u)) k = nth_error x j).
  { intros j row k Ej Ik. destruct (nth_error x j) as [v|] eqn:Ex.
    - apply (set_uniq_hit T st) with (j := j) (row := row); auto.
      + rewrite C. apply seq_NoDup.
      + rewrite A, repeat_length. assert (I : In k (concat st)) by (apply in_concat; exists row; split; [now apply nth_error_In in Ej|exact Ik]). rewrite C in I. apply in_seq in I. lia.
    - apply nth_error_None in Ex. assert (j < length st) by (apply nth_error_Some; congruence). lia. }
  split; [exact P|]. intros NE. unfold get_uniq_amps. assert (E : get_uniq T t0 st (set_uniq T st x (u_amps T u)) = x); [|destruct st; [contradiction|now rewrite E]].
  unfold get_uniq. apply (nth_ext _ _ t0 t0); [now rewrite map_length|]. intros j Hj. rewrite map_length in Hj.
  destruct (nth_error st j) as [row|] eqn:Ej; [|apply nth_error_None in Ej; lia].
  assert (Ik : In (hd 0 row) row) by (rewrite Forall_forall in N; specialize (N row (nth_error_In _ _ Ej)); destruct row; [contradiction|now left]).
  specialize (P j row (hd 0 row) Ej Ik). rewrite (nth_indep _ _ (nth (hd 0 []) (set_uniq T st x (u_amps T u)) t0)) by (now rewrite map_length).
  rewrite (map_nth (fun row => nth (hd 0 row) (set_uniq T st x (u_amps T u)) t0)), (nth_error_nth _ _ _ Ej). symmetry.
  destruct (nth_error x j) as [v|] eqn:Ex; [|apply nth_error_None in Ex; lia]. now rewrite (nth_error_nth _ _ _ Ex), (nth_error_nth _ _ _ P).
Qed.
(** with s2sym, the two spins of a single excitation share an amplitude; otherwise nothing is shared *)
Lemma tab_rows norb s l : Forall shaped l -> forall pre row, In row (tab norb s (length pre) l) ->
  let gens := pre ++ flat_map (gens_of norb) l in
  (exists k g, row = [k] /\ nth_error gens k = Some g /\ (s = true -> length (fst g) <> 1)) \/
  (s = true /\ exists k a i, row = [k; S k] /\ nth_error gens k = Some ([a], [i]) /\ nth_error gens (S k) = Some ([a + norb], [i + norb])).
Proof.
  induction 1 as [|g l Hg Hl IH]; intros pre row I; [destruct I|]. cbn [tab flat_map] in *. apply in_app_iff in I. destruct I as [I|I].
  - destruct g as [a i]. destruct Hg as [L N]. cbn [fst snd] in *.
    assert (C : In row (map (fun k => [k]) (seq (length pre) (length (cases norb a i)))) -> length a <> 1 ->
      exists k g, row = [k] /\ nth_error (pre ++ cases norb a i ++ flat_map (gens_of norb) l) k = Some g /\ (s = true -> length (fst g) <> 1)).
    { intros J N1. apply in_map_iff in J. destruct J as (k & <- & J). apply in_seq in J. 
      destruct (nth_error (cases norb a i) (k - length pre)) as [g|] eqn:E; [|apply nth_error_None in E; lia].
      exists k, g. split; [reflexivity|]. split; [rewrite nth_error_app2 by lia; rewrite nth_error_app1 by lia; exact E|]. intros _.
      apply nth_error_In in E. destruct g as [ab ij]. apply cases_in in E. destruct E as (ix & jx & ma & mi & E1 & _). apply nth_error_In, sc_in in E1. destruct E1 as (s' & L1 & -> & _).
      cbn [fst]. now rewrite put_len. }
    unfold rows, gens_of in *. cbn [fst snd] in *. destruct a as [|x [|y a]]; [contradiction| |left; apply C; [exact I|discriminate]].
    destruct i as [|z [|]]; try discriminate. clear C. cbn [map app] in *.
    assert (E1 : nth_error (pre ++ ([x], [z]) :: ([x + norb], [z + norb]) :: flat_map (gens_of norb) l) (length pre) = Some ([x], [z])) by (rewrite nth_error_app2, Nat.sub_diag by lia; reflexivity).
    assert (E2 : nth_error (pre ++ ([x], [z]) :: ([x + norb], [z + norb]) :: flat_map (gens_of norb) l) (S (length pre)) = Some ([x + norb], [z + norb])).
    { rewrite nth_error_app2 by lia. replace (S (length pre) - length pre) with 1 by lia. reflexivity. }
    destruct s.
    + destruct I as [<-|[]]. right. split; [reflexivity|]. exists (length pre), x, z. auto.
    + destruct I as [<-|[<-|[]]]; left; eexists; eexists; (split; [reflexivity|]); (split; [eassumption|discriminate]).
  - rewrite <- app_length in I. destruct (IH (pre ++ gens_of norb g) row I) as [R|R]; rewrite <- app_assoc in R; [left|right]; exact R.
Qed.
Theorem C61_shared T t0 norb s2sym aa ii u st row : init1 T t0 norb s2sym aa ii = Ok (u, st) -> In row st ->
  (exists k g, row = [k] /\ nth_error (u_gens T u) k = Some g /\ (s2sym = true -> length (fst g) <> 1)) \/
  (s2sym = true /\ exists k a i, row = [k; S k] /\ nth_error (u_gens T u) k = Some ([a], [i]) /\ nth_error (u_gens T u) (S k) = Some ([a + norb], [i + norb])).
Proof.
  intros H I. apply init1_inv in H. destruct H as (Sh & -> & -> & _). cbn [u_gens]. exact (tab_rows norb s2sym _ Sh [] row I).
Qed.

(** ** singles *)
Notation masked f p q := (match f with None => false | Some f => f p q end).
Notation t1_of t0 t1 p q := (match t1 with None => t0 | Some t1 => t1 p q end).
(** the amplitude that t1 gives to a generator *)
Definition from_t1 {T} (t0 : T) (norb : nat) (t1 : option (nat -> nat -> T)) (g : gen) : T :=
  match g with ([p], [q]) => t1_of t0 t1 (p mod norb) (q mod norb) | _ => t0 end.
Lemma from_t1_gens {T} (t0 : T) norb t1 g h v : good norb g -> In h (gens_of norb g) ->
  (forall p q, g = ([p], [q]) -> v = t1_of t0 t1 p q) -> (length (fst g) <> 1 -> v = t0) -> from_t1 t0 norb t1 h = v.
Proof.
  intros G I H1 H2. destruct (gens_of_in norb g h G I) as (V & S1 & S2). destruct G as (_ & _ & L & _). destruct h as [ab ij], g as [a i]. cbn [fst snd] in *. subst a i.
  destruct ab as [|x [|y ab]]; [symmetry; apply H2; discriminate| |].
  - destruct ij as [|z [|]]; try discriminate. symmetry. apply H1. reflexivity.
  - unfold from_t1. symmetry. apply H2. discriminate.
Qed.
Lemma amps_map {T} (t0 : T) norb t1 (l : list (gen * T)) : Forall (fun x => good norb (fst x)) l ->
  Forall (fun x => (forall p q, fst x = ([p], [q]) -> snd x = t1_of t0 t1 p q) /\ (length (fst (fst x)) <> 1 -> snd x = t0)) l ->
  flat_map (fun x => repeat (snd x) (length (gens_of norb (fst x)))) l = map (from_t1 t0 norb t1) (flat_map (gens_of norb) (map fst l)).
Proof.
  induction 1 as [|[g v] l G Hl IH]; intros F; [reflexivity|]. inversion F as [|? ? [F1 F2] F']; subst. cbn [flat_map map fst snd] in *. rewrite map_app, IH by assumption. f_equal.
  assert (Q : forall h, In h (gens_of norb g) -> from_t1 t0 norb t1 h = v) by (intros h I; now apply (from_t1_gens t0 norb t1 g h v G I)).
  revert Q. generalize (gens_of norb g) as hs. induction hs as [|h hs IHh]; intros Q; [reflexivity|]. cbn. rewrite Q by now left. f_equal. apply IHh. intros; apply Q; now right.
Qed.
Lemma repeat_map {A B} (v : B) (l : list A) : repeat v (length l) = map (fun _ => v) l.
Proof. induction l; cbn; congruence. Qed.
Theorem C61_uccs T t0 norb t1 freeze_mask : exists u st, get_uccs_op T t0 norb t1 freeze_mask = Ok (u, st) /\
  u_norb T u = 2 * norb /\
  (forall h, valid_gen norb h -> (once (u_gens T u) h <-> exists p q, q < p < norb /\ masked freeze_mask p q = false /\ palike (spatial norb (fst h), spatial norb (snd h)) ([p], [q]))) /\
  u_amps T u = map (from_t1 t0 norb t1) (u_gens T u).
Proof.
  unfold get_uccs_op. cbv zeta. set (idx := match freeze_mask with None => tril_strict norb | Some f => filter (fun x => negb (f (fst x) (snd x))) (tril_strict norb) end).
  assert (Ei : exists f, idx = filter f (tril_strict norb) /\ forall p q, f (p, q) = negb (masked freeze_mask p q)).
  { destruct freeze_mask as [f|]; [exists (fun x => negb (f (fst x) (snd x))); split; reflexivity|]. exists (fun _ => true). split; [symmetry; apply filter_id|reflexivity]. }
  destruct Ei as (f & Ei & Ef). clearbody idx.
  assert (Ec : combine (map (fun x : nat * nat => [fst x]) idx) (map (fun x => [snd x]) idx) = map single idx) by apply combine_map2.
  assert (G : Forall (good norb) (map single idx)).
  { apply Forall_forall. intros g I. apply in_map_iff in I. destruct I as (x & <- & I). rewrite Ei in I. apply filter_In in I. apply single_good. tauto. }
  assert (F : ForallOrdPairs (fun g h => ~ palike g h) (map single idx)) by (rewrite Ei; apply singles_unalike).
  pose proof (init1_ok T t0 norb true (map (fun x : nat * nat => [fst x]) idx) (map (fun x => [snd x]) idx)) as E. rewrite Ec in E. specialize (E G F).
  destruct (C61_complete T t0 norb true (map (fun x : nat * nat => [fst x]) idx) (map (fun x => [snd x]) idx)) as (u & st & E' & _ & O); [rewrite Ec; exact G|rewrite Ec; exact F|].
  rewrite E in E'. injection E' as <- <-. cbn [u_gens] in O. rewrite Ec in O. rewrite E. cbn [bind fst snd].
  assert (O' : forall h, valid_gen norb h -> (once (flat_map (gens_of norb) (map single idx)) h <-> exists p q, q < p < norb /\ masked freeze_mask p q = false /\ palike (spatial norb (fst h), spatial norb (snd h)) ([p], [q]))).
  { intros h V. rewrite (O h V). split.
    - intros (g & I & P). apply in_map_iff in I. destruct I as ((p & q) & <- & I). rewrite Ei in I. apply filter_In in I. destruct I as [I Fx]. apply tril_strict_in in I.
      rewrite Ef in Fx. apply negb_true_iff in Fx. exists p, q. auto.
    - intros (p & q & I & Fx & P). exists (single (p, q)). split; [|exact P]. apply in_map. rewrite Ei. apply filter_In. split; [now apply tril_strict_in|]. rewrite Ef, Fx. reflexivity. }
  destruct t1 as [t1|].
  - eexists. eexists. split; [reflexivity|]. cbn [set_amps u_norb u_gens u_amps]. split; [reflexivity|]. split; [exact O'|].
    set (l := map (fun x => (single x, t1 (fst x) (snd x))) idx).
    assert (E1 : map single idx = map fst l) by (unfold l; rewrite map_map; apply map_ext; reflexivity).
    assert (E2 : map (fun x => t1 (fst x) (snd x)) idx = flat_map (fun x => repeat (snd x) (length (rows norb true 0 (fst x)))) l).
    { unfold l. clear. induction idx as [|x idx IH]; [reflexivity|]. cbn [map flat_map]. cbn [fst snd single rows length repeat app]. now rewrite IH. }
    rewrite E2, E1, set_uniq_tab by (rewrite repeat_length; lia). cbn [firstn app Nat.add]. rewrite skipn_all2 by (rewrite repeat_length; lia). rewrite app_nil_r.
    apply (amps_map t0 norb (Some t1)).
    + unfold l. apply Forall_forall. intros y I. apply in_map_iff in I. destruct I as (x & <- & I). cbn [fst]. rewrite Forall_forall in G. apply G. now apply in_map.
    + unfold l. apply Forall_forall. intros y I. apply in_map_iff in I. destruct I as (x & <- & I). cbn [fst snd single]. split; [|cbn; lia]. intros p q Q. injection Q as <- <-. reflexivity.
  - eexists. eexists. split; [reflexivity|]. cbn [u_norb u_gens u_amps]. split; [reflexivity|]. split; [exact O'|].
    rewrite repeat_map. apply map_ext_in. intros h I. apply in_flat_map in I. destruct I as (g & Ig & I). rewrite Forall_forall in G. symmetry. apply (from_t1_gens t0 norb None g h t0 (G g Ig) I); auto.
Qed.

(** ** singles and doubles *)
(** position of a spatial excitation in the documented order: singles before doubles, then row-major *)
Definition pattern (norb : nat) (g : gen) : list Z := map Z.of_nat (length (fst g) :: spatial norb (fst g) ++ spatial norb (snd g)).
Lemma all_fst_len norb : length (map single (tril_strict norb)) = length (tril_strict norb). Proof. apply map_length. Qed.
Lemma uccsd_init T t0 norb s : init1 T t0 norb s (map (fun x : nat * nat => [fst x]) (tril_strict norb) ++ map fst (two_of norb)) (map (fun x : nat * nat => [snd x]) (tril_strict norb) ++ map snd (two_of norb)) =
  Ok (mkU T (2 * norb) (flat_map (gens_of norb) (all_of norb)) (repeat t0 (length (flat_map (gens_of norb) (all_of norb)))), tab norb s 0 (all_of norb)).
Proof.
  pose proof (combine_all (fun x : nat * nat => [fst x]) (fun x => [snd x]) (tril_strict norb) (two_of norb)) as Ec.
  cbv beta in Ec. fold single in Ec. rewrite init1_ok; rewrite Ec; [reflexivity|apply all_good|]. apply (FOP_impl (fun g h => ~ palike g h /\ lexcmp (pat g) (pat h) = Lt)); [now intros g1 g2 _ _ [H _]|]. apply all_FOP.
Qed.
Lemma uccsd_ne norb s : 2 <= norb -> tab norb s 0 (all_of norb) <> [].
Proof.
  intros N E. pose proof (tab_concat norb s (all_of norb) 0) as C. rewrite E in C. cbn [concat] in C.
  assert (I : In ([1], [0]) (flat_map (gens_of norb) (all_of norb))).
  { apply in_flat_map. exists (single (1, 0)). split; [|left; reflexivity]. apply in_app_iff. left. apply in_map. apply tril_strict_in. lia. }
  destruct (flat_map (gens_of norb) (all_of norb)); [destruct I|discriminate].
Qed.
Lemma repeat_app' {A} (v : A) j k : repeat v (j + k) = repeat v j ++ repeat v k.
Proof. induction j; cbn; congruence. Qed.
Lemma skipn_repeat {A} (v : A) : forall j k, skipn j (repeat v k) = repeat v (k - j).
Proof. induction j as [|j IH]; intros [|k]; try reflexivity. cbn. apply IH. Qed.
Lemma map_const {A B} (v : B) (l : list A) : map (fun _ => v) l = repeat v (length l).
Proof. induction l; cbn; congruence. Qed.
Lemma get_zero T (t0 : T) st n : get_uniq T t0 st (repeat t0 n) = repeat t0 (length st).
Proof. unfold get_uniq. rewrite <- map_const. apply map_ext. intros row. apply nth_repeat. Qed.
Lemma tab_len norb s l : forall k, length (tab norb s k l) = list_sum (map (fun g => length (rows norb s 0 g)) l).
Proof.
  assert (RL : forall k g, length (rows norb s k g) = length (rows norb s 0 g)).
  { intros k g. unfold rows. destruct (fst g) as [|x [|y a]]; [now rewrite !map_length, !seq_length| |now rewrite !map_length, !seq_length]. now destruct s. }
  induction l as [|g l IH]; intros k; [reflexivity|]. cbn [tab map]. rewrite app_length, IH, RL. reflexivity.
Qed.
Lemma set_zero T (t0 : T) st n : set_uniq T st (repeat t0 (length st)) (repeat t0 n) = repeat t0 n.
Proof.
  rewrite set_uniq_same. assert (E : forall row n, fold_left (fun amps k => upd k (fun _ => t0) amps) row (repeat t0 n) = repeat t0 n); [|apply E].
  clear. induction row as [|k row IH]; intros n; cbn [fold_left]; [reflexivity|]. assert (U : forall k n, upd k (fun _ => t0) (repeat t0 n) = repeat t0 n).
  { clear. induction k as [|k IH]; intros [|n]; try reflexivity. cbn. now rewrite IH. }
  now rewrite U.
Qed.
(** the operator exists from two orbitals on, with every excitation that conserves both spins once *)
Theorem C61_uccsd T t0 norb t1 s2sym : 2 <= norb -> exists u st, get_uccsd_op T t0 norb t1 s2sym = Ok (u, st) /\
  u_norb T u = 2 * norb /\ length (u_amps T u) = length (u_gens T u) /\
  Forall (fun g => valid_gen norb g /\ (length (fst g) = 1 \/ length (fst g) = 2)) (u_gens T u) /\
  (forall h, valid_gen norb h -> length (fst h) = 1 \/ length (fst h) = 2 -> once (u_gens T u) h) /\
  ForallOrdPairs (fun g h => lexcmp (pattern norb g) (pattern norb h) <> Gt) (u_gens T u).
Proof.
  intros N. unfold get_uccsd_op. cbv zeta. rewrite uccsd_init. cbn [bind fst snd u_amps].
  pose proof (uccsd_ne norb s2sym N) as NE. unfold get_uniq_amps. destruct (tab norb s2sym 0 (all_of norb)) as [|row st] eqn:Et; [contradiction|]. rewrite <- Et in *. clear row st Et. cbn [bind].
  eexists. eexists. split; [reflexivity|]. cbn [set_amps u_norb u_gens u_amps]. split; [reflexivity|]. split; [now rewrite uniq_len, repeat_length|].
  pose proof (all_good norb) as G. pose proof (proj1 (Forall_forall _ _) G) as G'.
  assert (AL : forall g, In g (all_of norb) -> length (fst g) = 1 \/ length (fst g) = 2).
  { intros g I. apply in_app_iff in I. destruct I as [I|I].
    - apply in_map_iff in I. destruct I as (x & <- & I). now left.
    - destruct g as [ab ij]. apply cwr_in in I. destruct I as [I _]. apply in_map_iff in I. destruct I as (x & <- & I). now right. }
  split; [|split].
  - apply Forall_forall. intros h I. apply in_flat_map in I. destruct I as (g & Ig & I). destruct (gens_of_in norb g h (G' g Ig) I) as (V & S1 & _). split; [exact V|].
    destruct (AL g Ig) as [L|L]; rewrite <- S1 in L; unfold spatial in L; rewrite map_length in L; auto.
  - intros h V L. destruct (all_covers norb h V L) as (g & I & P). apply unalike_once.
    + apply good_unalike; [exact G|]. apply (FOP_impl (fun g h => ~ palike g h /\ lexcmp (pat g) (pat h) = Lt)); [now intros g1 g2 _ _ [H _]|]. apply all_FOP.
    + destruct (gens_of_all norb g h (G' g I) V P) as (k & Ik & A). exists k. split; [|exact A]. apply in_flat_map. eauto.
  - assert (PP : forall g h, In g (all_of norb) -> In h (gens_of norb g) -> pattern norb h = pat g).
    { intros g h I J. destruct (gens_of_in norb g h (G' g I) J) as (_ & S1 & S2). unfold pattern, pat. rewrite S1, S2. f_equal. f_equal. rewrite <- S1. unfold spatial. now rewrite map_length. }
    apply FOP_flat_map.
    + intros g I. assert (Q : forall hs, (forall h, In h hs -> pattern norb h = pat g) -> ForallOrdPairs (fun g h => lexcmp (pattern norb g) (pattern norb h) <> Gt) hs).
      { clear. induction hs as [|h hs IH]; intros Q; constructor.
        - apply Forall_forall. intros h' I. rewrite (Q h), (Q h') by (cbn; auto). rewrite lexcmp_refl. discriminate.
        - apply IH. intros; apply Q; now right. }
      apply Q. intros h J. now apply PP.
    + apply (FOP_impl (fun g h => ~ palike g h /\ lexcmp (pat g) (pat h) = Lt)); [|apply all_FOP]. intros g g' I I' [_ L] h h' J J'.
      rewrite (PP g h), (PP g' h') by assumption. rewrite L. discriminate.
Qed.
(** the order of the spin cases of one pattern: aa_aa, ba_ba, ba_ab, ab_ba, ab_ab, bb_bb *)
Theorem C61_spin_order T t0 norb s2sym p q r s : q < p < norb -> s < r < norb -> (p, q) <> (r, s) -> exists u st,
  init1 T t0 norb s2sym [[p; q]] [[r; s]] = Ok (u, st) /\ u_gens T u =
   [([p; q], [r; s]); ([p + norb; q], [r + norb; s]); ([p + norb; q], [r; s + norb]);
    ([p; q + norb], [r + norb; s]); ([p; q + norb], [r; s + norb]); ([p + norb; q + norb], [r + norb; s + norb])].
Proof.
  intros Hp Hr N. assert (G : good norb ([p; q], [r; s])).
  { unfold good, below. cbn [fst snd length]. split; [repeat constructor; lia|]. split; [repeat constructor; lia|]. split; [reflexivity|]. split; [discriminate|].
    intros P. apply two_perm in P; [|lia|lia]. destruct P as [-> ->]. contradiction. }
  eexists. eexists. split; [apply init1_ok; cbn [combine]; [constructor; [exact G|constructor]|repeat constructor]|]. cbn [u_gens combine flat_map]. rewrite app_nil_r. unfold gens_of. cbn [fst snd]. now apply doubles.
Qed.
(** one spin case is left of an exchange of spins *)
Theorem C61_spin_exchange T t0 norb s2sym p q : q < p < norb -> exists u st,
  init1 T t0 norb s2sym [[p; q]] [[p; q]] = Ok (u, st) /\ u_gens T u = [([p + norb; q], [p; q + norb])].
Proof.
  intros Hp. assert (G : good norb ([p; q], [p; q])).
  { unfold good, below. cbn [fst snd length]. split; [repeat constructor; lia|]. split; [repeat constructor; lia|]. split; [reflexivity|]. split; [discriminate|]. intros _. split; [reflexivity|lia]. }
  eexists. eexists. split; [apply init1_ok; cbn [combine]; [constructor; [exact G|constructor]|repeat constructor]|]. cbn [u_gens combine flat_map]. rewrite app_nil_r. unfold gens_of. cbn [fst snd]. now apply double_same.
Qed.
(** t1 reaches both spins of each single excitation *)
Theorem C61_t1 T t0 norb t1 : 2 <= norb -> exists u st, get_uccsd_op T t0 norb (Some t1) true = Ok (u, st) /\
  u_amps T u = map (from_t1 t0 norb (Some t1)) (u_gens T u).
Proof.
  intros N. unfold get_uccsd_op. cbv zeta. rewrite uccsd_init. cbn [bind fst snd u_amps].
  pose proof (uccsd_ne norb true N) as NE. unfold get_uniq_amps. destruct (tab norb true 0 (all_of norb)) as [|row st] eqn:Et; [contradiction|]. rewrite <- Et in *. clear row st Et NE. cbn [bind].
  eexists. eexists. split; [reflexivity|]. cbn [set_amps u_norb u_gens u_amps]. rewrite get_zero, skipn_repeat.
  set (l := map (fun x => (single x, t1 (fst x) (snd x))) (tril_strict norb) ++ map (fun g => (g, t0)) (two_of norb)).
  assert (E1 : all_of norb = map fst l) by (unfold l, all_of; rewrite map_app, !map_map; cbn [fst]; now rewrite map_id).
  assert (R1 : flat_map (fun x => repeat (snd x) (length (rows norb true 0 (fst x)))) (map (fun x => (single x, t1 (fst x) (snd x))) (tril_strict norb)) = map (fun x => t1 (fst x) (snd x)) (tril_strict norb)).
  { generalize (tril_strict norb) as idx. induction idx as [|x idx IH]; [reflexivity|]. cbn [map flat_map]. cbn [fst snd single rows length repeat app]. now rewrite IH. }
  assert (R2 : flat_map (fun x => repeat (snd x) (length (rows norb true 0 (fst x)))) (map (fun g => (g, t0)) (two_of norb)) = repeat t0 (list_sum (map (fun g => length (rows norb true 0 g)) (two_of norb)))).
  { generalize (two_of norb) as two. induction two as [|g two IH]; [reflexivity|]. cbn [map flat_map fst snd]. rewrite IH. change (list_sum (?a :: ?b)) with (a + list_sum b). now rewrite repeat_app'. }
  assert (E2 : map (fun x => t1 (fst x) (snd x)) (tril_strict norb) ++ repeat t0 (length (tab norb true 0 (all_of norb)) - length (tril_strict norb)) = flat_map (fun x => repeat (snd x) (length (rows norb true 0 (fst x)))) l).
  { unfold l. rewrite flat_map_app, R1, R2. f_equal. f_equal. rewrite tab_len. unfold all_of. rewrite map_app, list_sum_app.
    assert (S1 : list_sum (map (fun g => length (rows norb true 0 g)) (map single (tril_strict norb))) = length (tril_strict norb)); [|lia].
    generalize (tril_strict norb) as idx. induction idx as [|x idx IH]; [reflexivity|]. cbn [map length]. change (list_sum (?a :: ?b)) with (a + list_sum b). rewrite IH. reflexivity. }
  rewrite E2, E1, set_uniq_tab by (rewrite repeat_length; lia). cbn [firstn app Nat.add]. rewrite skipn_all2 by (rewrite repeat_length; lia). rewrite app_nil_r.
  apply amps_map; unfold l; apply Forall_app; split; apply Forall_forall; intros y I; apply in_map_iff in I; destruct I as (x & <- & I); cbn [fst snd].
  - now apply single_good.
  - now apply two_good.
  - split; [|cbn; lia]. intros p q Q. unfold single in Q. injection Q as <- <-. reflexivity.
  - split; [|reflexivity]. intros p q ->. apply cwr_in in I. destruct I as [I _]. apply in_map_iff in I. destruct I as (z & Z & _). discriminate.
Qed.
(** Finding: with s2sym=False the amplitudes of t1 go to the first half of the spin-separated
    singles instead: the two spins of one excitation differ, and half of t1's excitations stay at zero. *)
Theorem C61_t1_refuted : exists norb t1 u st k g, get_uccsd_op nat 0 norb (Some t1) false = Ok (u, st) /\
  nth_error (u_gens nat u) k = Some g /\ nth_error (u_amps nat u) k <> Some (from_t1 0 norb (Some t1) g).
Proof.
  exists 3, (fun p q => 10 * p + q). destruct (get_uccsd_op nat 0 3 (Some (fun p q => 10 * p + q)) false) as [[u st]|e] eqn:E; [|exfalso; revert E; vm_compute; discriminate].
  exists u, st, 1, ([4], [3]). split; [reflexivity|]. revert E. vm_compute. intros E. injection E as <- <-. split; [reflexivity|discriminate].
Qed.
(** Finding: without generators, the array of their indices has no integer type: for fewer than two
    orbitals the operator cannot be made. *)
Theorem C61_uccsd_small T t0 norb t1 s2sym : norb < 2 -> get_uccsd_op T t0 norb t1 s2sym = Raise IndexError.
Proof. intros N. assert (norb = 0 \/ norb = 1) as [->| ->] by lia; reflexivity. Qed.

Module Ex.
Example init_ex : init1 nat 0 2 true [[1]; [1; 0]] [[0]; [1; 0]] = Ok (mkU nat 4 [([1], [0]); ([3], [2]); ([3; 0], [1; 2])] [0; 0; 0], [[0; 1]; [2]]).
Proof. reflexivity. Qed.
Example init_length_ex : init1 nat 0 2 true [[1]] [[0; 1]] = Raise AssertionError.
Proof. reflexivity. Qed.
(** the same two orbitals in another order are taken for another excitation, and fail the check *)
Example init_order_ex : init1 nat 0 2 true [[1; 0]] [[0; 1]] = Raise AssertionError.
Proof. reflexivity. Qed.
Example uccs_ex : get_uccs_op nat 0 3 (Some (fun p q => 10 * p + q)) (Some (fun p q => (p =? 2) && (q =? 0))) =
  Ok (mkU nat 6 [([1], [0]); ([4], [3]); ([2], [1]); ([5], [4])] [10; 10; 21; 21], [[0; 1]; [2; 3]]).
Proof. reflexivity. Qed.
Example uccsd_ex : get_uccsd_op nat 0 2 (Some (fun p q => 10 * p + q)) true =
  Ok (mkU nat 4 [([1], [0]); ([3], [2]); ([2; 0], [3; 0]); ([2; 0], [1; 2]); ([2; 0], [3; 1]); ([3; 0], [1; 2]); ([3; 0], [3; 1]); ([1; 2], [3; 1])]
    [10; 10; 0; 0; 0; 0; 0; 0], [[0; 1]; [2]; [3]; [4]; [5]; [6]; [7]]).
Proof. reflexivity. Qed.
Example uccsd_t1_ex : match get_uccsd_op nat 0 3 (Some (fun p q => 10 * p + q)) false with Ok (u, _) => firstn 6 (combine (u_gens nat u) (u_amps nat u)) | _ => [] end =
  [(([1], [0]), 10); (([4], [3]), 20); (([2], [0]), 21); (([5], [3]), 0); (([2], [1]), 0); (([5], [4]), 0)].
Proof. reflexivity. Qed.
Example valid_ex : valid_gen 2 ([2; 0], [1; 2]).
Proof. split; [|split; reflexivity]. unfold sane, below. cbn [fst snd]. repeat split; repeat constructor; cbn; try lia; intuition. destruct (proj1 (H 0)) as [C|[C|[]]]; cbn; auto; discriminate. Qed.
End Ex.

Print Assumptions C61_spincases. Print Assumptions C61_column_major. Print Assumptions C61_column_major_refuted. Print Assumptions C61_sound.
Print Assumptions C61_inherits. Print Assumptions C61_complete. Print Assumptions C61_symtab. Print Assumptions C61_amplitudes. Print Assumptions C61_shared.
Print Assumptions C61_uccs. Print Assumptions C61_uccsd. Print Assumptions C61_spin_order. Print Assumptions C61_spin_exchange. Print Assumptions C61_t1.
Print Assumptions C61_t1_refuted. Print Assumptions C61_uccsd_small.
