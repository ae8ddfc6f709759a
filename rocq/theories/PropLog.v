(** Property C44: reading a log. *)
From Coq Require Import List Bool String Ascii Arith Lia.
From Verif Require Import Base BaseFacts LogModel.
Import ListNotations.
Local Open Scope string_scope.
Local Open Scope list_scope.

Section Float.
  Variable F : Type.
  Variable float : string -> res F.
  Notation data := (data F).
  Notation loop := (read_module_loop F).

  (** ** Complete logs are read to the end, with the expected result *)
  (** Specification: a complete log as a syntax tree with its text and its meaning. *)
  Inductive ras_block := RPlain (s : string) | REnergies (head a b : string) (roots : list (string * F)) (term : string).
  Inductive pdft_block := PPlain (s : string) | PEnergy (line : string) (e : F).
  Inductive grad_block := GPlain (s : string) | GTable (head : string) (skipped : list string) (rows : list (string * list F)) (close : string).
  Inductive item :=
  | Junk (s : string)
  | Other (head s name : string)
  | Ras (head s name : string) (b : list ras_block) (stop : string)
  | Pdft (head s name : string) (b : list pdft_block) (stop : string)
  | Grad (head s name : string) (b : list grad_block) (stop : string).

  Definition plain (stop flag s : string) : Prop := starts s stop = false /\ starts s flag = false.
  Definition ras_ok (b : ras_block) : Prop :=
    match b with
    | RPlain s => plain stop_ras flag_ras s
    | REnergies h a b roots term => starts h flag_ras = true
        /\ Forall (fun r => starts (fst r) "::    RASSCF root number" = true /\ last_float F float (fst r) = Ok (snd r)) roots
        /\ starts term "::    RASSCF root number" = false
    end.
  Definition ras_text (b : ras_block) : list string :=
    match b with RPlain s => [s] | REnergies h a b roots term => h :: a :: b :: map fst roots ++ [term] end.
  Definition pdft_ok (b : pdft_block) : Prop :=
    match b with
    | PPlain s => plain stop_pdft flag_pdft s
    | PEnergy l e => starts l flag_pdft = true /\ last_float F float l = Ok e
    end.
  Definition pdft_text (b : pdft_block) : list string := match b with PPlain s => [s] | PEnergy l _ => [l] end.
  Definition grad_ok (b : grad_block) : Prop :=
    match b with
    | GPlain s => plain stop_grad flag_grad s
    | GTable h sk rows cl => starts h flag_grad = true /\ List.length sk = 7
        /\ Forall (fun r => starts (fst r) " ---" = false /\ row_floats F float (fst r) = Ok (snd r)) rows /\ starts cl " ---" = true
    end.
  Definition grad_text (b : grad_block) : list string :=
    match b with GPlain s => [s] | GTable h sk rows cl => h :: sk ++ map fst rows ++ [cl] end.
  Definition item_ok (i : item) : Prop :=
    match i with
    | Junk s => starts s "()()()" = false
    | Other h _ n => starts h "()()()" = true /\ strip n <> "&ALASKA" /\ strip n <> "&RASSCF" /\ strip n <> "&MCPDFT"
    | Ras h _ n b st => starts h "()()()" = true /\ strip n = "&RASSCF" /\ Forall ras_ok b /\ starts st stop_ras = true
    | Pdft h _ n b st => starts h "()()()" = true /\ strip n = "&MCPDFT" /\ Forall pdft_ok b /\ starts st stop_pdft = true
    | Grad h _ n b st => starts h "()()()" = true /\ strip n = "&ALASKA" /\ Forall grad_ok b /\ starts st stop_grad = true
    end.
  Definition item_text (i : item) : list string :=
    match i with
    | Junk s => [s]
    | Other h s n => [h; s; n]
    | Ras h s n b st => h :: s :: n :: flat_map ras_text b ++ [st]
    | Pdft h s n b st => h :: s :: n :: flat_map pdft_text b ++ [st]
    | Grad h s n b st => h :: s :: n :: flat_map grad_text b ++ [st]
    end.
  (** the tables of each kind, in order; a key exists as soon as its module was seen *)
  Definition ras_vals (b : ras_block) : list (list F) := match b with REnergies _ _ _ r _ => [map snd r] | _ => [] end.
  Definition pdft_vals (b : pdft_block) : list F := match b with PEnergy _ e => [e] | _ => [] end.
  Definition grad_vals (b : grad_block) : list (list (list F)) := match b with GTable _ _ r _ => [map snd r] | _ => [] end.
  Definition add_vals {X} (o : option (list X)) (l : list X) : option (list X) := Some (match o with Some l0 => l0 ++ l | None => l end).
  Definition item_meaning (d : data) (i : item) : data :=
    match i with
    | Ras _ _ _ b _ => mkData F (add_vals (d_ras F d) (flat_map ras_vals b)) (d_pdft F d) (d_grad F d)
    | Pdft _ _ _ b _ => mkData F (d_ras F d) (add_vals (d_pdft F d) (flat_map pdft_vals b)) (d_grad F d)
    | Grad _ _ _ b _ => mkData F (d_ras F d) (d_pdft F d) (add_vals (d_grad F d) (flat_map grad_vals b))
    | _ => d
    end.
  Definition log_text (l : list item) : list string := flat_map item_text l.
  Definition log_meaning (l : list item) : data := fold_left item_meaning l (mkData F None None None).

  (** ** Generic block lemma *)
  Definition blk_ok (stop flag : string) (fn : nat -> string -> list string -> data -> run data) (txt : list string) (eff : data -> data) : Prop :=
    exists f t, txt = f :: t /\ starts f stop = false /\
      ((starts f flag = false /\ t = [] /\ forall d, eff d = d)
       \/ (starts f flag = true /\ exists N, forall n rest d, N <= n -> fn n f (t ++ rest) d = Done (eff d) rest)).
  Lemma loop_blocks stop flag fn (st : string) : starts st stop = true -> starts st flag = false ->
    forall bs, Forall (fun b => blk_ok stop flag fn (fst b) (snd b)) bs ->
    exists N, forall n line rest d, N <= n -> starts line stop = false ->
      loop n stop flag fn line (flat_map fst bs ++ st :: rest) d = Done (fold_left (fun d b => snd b d) bs d) rest.
  Proof.
    intros Hst Hsf bs. induction bs as [|[txt eff] bs IH]; intros Hb.
    - exists 2. intros n line rest d Hn Hl. destruct n as [|[|n]]; try lia. cbn. rewrite Hl, Hsf, Hst. reflexivity.
    - inversion Hb as [|? ? B1 B2]; subst. destruct (IH B2) as [N HN]. destruct B1 as (f & t & E & Hfs & Hc). cbn in E. subst txt.
      destruct Hc as [(Hff & -> & He) | (Hff & N1 & H1)].
      + exists (S N). intros n line rest d Hn Hl. destruct n as [|n]; [lia|]. cbn. rewrite Hl, Hff. rewrite HN by (auto; lia). now rewrite He.
      + exists (S (N + N1)). intros n line rest d Hn Hl. destruct n as [|n]; [lia|]. cbn. rewrite Hl, Hff. rewrite <- app_assoc. rewrite H1 by lia.
        apply HN; [lia | exact Hfs].
  Qed.

  Definition clash (p q : string) : bool :=
    match p, q with String a _, String b _ => negb (Ascii.eqb a b) | _, _ => false end.
  Lemma starts_conflict p q s : clash p q = true -> starts s p = true -> starts s q = false.
  Proof.
    intros Hn H. unfold starts in *. destruct p as [|a x]; [discriminate|]. destruct q as [|b y]; [discriminate|]. cbn in Hn.
    destruct s as [|c s]; [discriminate|]. cbn in *. destruct (Ascii.eqb_spec a b); [discriminate|].
    destruct (ascii_dec a c); [subst|discriminate]. destruct (ascii_dec b c); [congruence|reflexivity].
  Qed.

  Lemma energies_ok roots term rest acc n :
    Forall (fun r => starts (fst r) "::    RASSCF root number" = true /\ last_float F float (fst r) = Ok (snd r)) roots ->
    starts term "::    RASSCF root number" = false -> List.length roots < n ->
    let ls := map fst roots ++ term :: rest in energies F float n (hd "" ls) (tl ls) acc = Done (acc ++ map snd roots) rest.
  Proof.
    intros H. revert acc n. induction H as [|[r e] roots [H1 H2] _ IH]; intros acc n Ht Hn; destruct n as [|n]; try (cbn in Hn; lia).
    - cbn [map app hd tl energies]. rewrite Ht. now rewrite app_nil_r.
    - cbn [map app hd tl energies fst snd] in *. rewrite H1, H2.
      assert (Hr : forall ls : list string, ls <> [] -> readline ls = (hd "" ls, tl ls)) by (intros [|? ?]; [contradiction | reflexivity]).
      rewrite Hr by (destruct roots; discriminate). cbn zeta in IH. rewrite IH by (auto; cbn in Hn; lia). rewrite <- app_assoc. reflexivity.
  Qed.
  Lemma rows_ok rows cl rest acc n :
    Forall (fun r => starts (fst r) " ---" = false /\ row_floats F float (fst r) = Ok (snd r)) rows ->
    starts cl " ---" = true -> List.length rows < n ->
    let ls := map fst rows ++ cl :: rest in grad_rows F float n (hd "" ls) (tl ls) acc = Done (acc ++ map snd rows) rest.
  Proof.
    intros H. revert acc n. induction H as [|[r e] rows [H1 H2] _ IH]; intros acc n Ht Hn; destruct n as [|n]; try (cbn in Hn; lia).
    - cbn [map app hd tl grad_rows]. rewrite Ht. now rewrite app_nil_r.
    - cbn [map app hd tl grad_rows fst snd] in *. rewrite H1, H2.
      assert (Hr : forall ls : list string, ls <> [] -> readline ls = (hd "" ls, tl ls)) by (intros [|? ?]; [contradiction | reflexivity]).
      rewrite Hr by (destruct rows; discriminate). cbn zeta in IH. rewrite IH by (auto; cbn in Hn; lia). rewrite <- app_assoc. reflexivity.
  Qed.

  Definition ras_eff (b : ras_block) (d : data) : data :=
    match b with REnergies _ _ _ r _ => mkData F (app_opt (d_ras F d) (map snd r)) (d_pdft F d) (d_grad F d) | _ => d end.
  Lemma ras_blk b : ras_ok b -> blk_ok stop_ras flag_ras (ras_handler F float) (ras_text b) (ras_eff b).
  Proof.
    destruct b as [s | h a b roots term].
    - intros [H1 H2]. exists s, []. repeat split; auto.
    - intros (H1 & H2 & H3). exists h, (a :: b :: map fst roots ++ [term]). split; [reflexivity|].
      split; [exact (starts_conflict flag_ras stop_ras _ eq_refl H1)|]. right. split; [exact H1|].
      exists (S (List.length roots)). intros n rest d Hn. unfold ras_handler.
      assert (E : skip 3 h ((a :: b :: map fst roots ++ [term]) ++ rest) = (hd "" (map fst roots ++ term :: rest), tl (map fst roots ++ term :: rest))).
      { cbn. rewrite <- app_assoc. cbn. destruct roots; reflexivity. }
      rewrite E. rewrite (energies_ok roots term rest [] n) by (auto; lia). reflexivity.
  Qed.
  Definition pdft_eff (b : pdft_block) (d : data) : data :=
    match b with PEnergy _ e => mkData F (d_ras F d) (app_opt (d_pdft F d) e) (d_grad F d) | _ => d end.
  Lemma pdft_blk b : pdft_ok b -> blk_ok stop_pdft flag_pdft (pdft_handler F float) (pdft_text b) (pdft_eff b).
  Proof.
    destruct b as [s | l e].
    - intros [H1 H2]. exists s, []. repeat split; auto.
    - intros (H1 & H2). exists l, []. split; [reflexivity|]. split; [exact (starts_conflict flag_pdft stop_pdft _ eq_refl H1)|].
      right. split; [exact H1|]. exists 0. intros n rest d _. unfold pdft_handler. rewrite H2. reflexivity.
  Qed.
  Definition grad_eff (b : grad_block) (d : data) : data :=
    match b with GTable _ _ r _ => mkData F (d_ras F d) (d_pdft F d) (app_opt (d_grad F d) (map snd r)) | _ => d end.
  Lemma grad_blk b : grad_ok b -> blk_ok stop_grad flag_grad (grad_handler F float) (grad_text b) (grad_eff b).
  Proof.
    destruct b as [s | h sk rows cl].
    - intros [H1 H2]. exists s, []. repeat split; auto.
    - intros (H1 & H2 & H3 & H4). exists h, (sk ++ map fst rows ++ [cl]). split; [reflexivity|].
      split; [exact (starts_conflict flag_grad stop_grad _ eq_refl H1)|]. right. split; [exact H1|].
      exists (S (List.length rows)). intros n rest d Hn. unfold grad_handler.
      assert (E : skip 8 h ((sk ++ map fst rows ++ [cl]) ++ rest) = (hd "" (map fst rows ++ cl :: rest), tl (map fst rows ++ cl :: rest))).
      { do 7 (destruct sk as [|? sk]; [discriminate H2|]). destruct sk; [|discriminate H2]. cbn. rewrite <- app_assoc. cbn. destruct rows; reflexivity. }
      rewrite E. rewrite (rows_ok rows cl rest [] n) by (auto; lia). reflexivity.
  Qed.

  Lemma module_ok {B} (stop flag : string) fn (ok : B -> Prop) (txt : B -> list string) (eff : B -> data -> data) :
    (forall b, ok b -> blk_ok stop flag fn (txt b) (eff b)) -> starts "" stop = false ->
    (forall s, starts s stop = true -> starts s flag = false) ->
    forall bs st, Forall ok bs -> starts st stop = true ->
    exists N, forall n rest d, N <= n -> loop n stop flag fn "" (flat_map txt bs ++ st :: rest) d = Done (fold_left (fun d b => eff b d) bs d) rest.
  Proof.
    intros H Hs0 Hc bs st Hb Hst. destruct (loop_blocks stop flag fn st Hst (Hc _ Hst) (map (fun b => (txt b, eff b)) bs)) as [N HN].
    { apply Forall_map. eapply Forall_impl; [|exact Hb]. exact H. }
    exists N. intros n rest d Hn. specialize (HN n "" rest d Hn Hs0).
    rewrite flat_map_concat_map, map_map, <- flat_map_concat_map in HN. cbn [fst] in HN. etransitivity; [exact HN|]. f_equal.
    clear. revert d. induction bs as [|b bs IH]; intros d; [reflexivity|]. apply IH.
  Qed.
  Lemma eff_ras bs d : fold_left (fun d b => ras_eff b d) bs (mkData F (init_opt (d_ras F d)) (d_pdft F d) (d_grad F d))
    = mkData F (add_vals (d_ras F d) (flat_map ras_vals bs)) (d_pdft F d) (d_grad F d).
  Proof.
    assert (W : forall l, fold_left (fun d b => ras_eff b d) bs (mkData F (Some l) (d_pdft F d) (d_grad F d)) = mkData F (Some (l ++ flat_map ras_vals bs)) (d_pdft F d) (d_grad F d)).
    { induction bs as [|b bs IH]; intros l; [cbn; now rewrite app_nil_r|]. destruct b; [exact (IH l)|]. etransitivity; [apply (IH (l ++ [map snd roots]))|]. cbn. now rewrite <- app_assoc. }
    unfold init_opt, add_vals. rewrite W. destruct (d_ras F d); reflexivity.
  Qed.
  Lemma eff_pdft bs d : fold_left (fun d b => pdft_eff b d) bs (mkData F (d_ras F d) (init_opt (d_pdft F d)) (d_grad F d))
    = mkData F (d_ras F d) (add_vals (d_pdft F d) (flat_map pdft_vals bs)) (d_grad F d).
  Proof.
    assert (W : forall l, fold_left (fun d b => pdft_eff b d) bs (mkData F (d_ras F d) (Some l) (d_grad F d)) = mkData F (d_ras F d) (Some (l ++ flat_map pdft_vals bs)) (d_grad F d)).
    { induction bs as [|b bs IH]; intros l; [cbn; now rewrite app_nil_r|]. destruct b; [exact (IH l)|]. etransitivity; [apply (IH (l ++ [e]))|]. cbn. now rewrite <- app_assoc. }
    unfold init_opt, add_vals. rewrite W. destruct (d_pdft F d); reflexivity.
  Qed.
  Lemma eff_grad bs d : fold_left (fun d b => grad_eff b d) bs (mkData F (d_ras F d) (d_pdft F d) (init_opt (d_grad F d)))
    = mkData F (d_ras F d) (d_pdft F d) (add_vals (d_grad F d) (flat_map grad_vals bs)).
  Proof.
    assert (W : forall l, fold_left (fun d b => grad_eff b d) bs (mkData F (d_ras F d) (d_pdft F d) (Some l)) = mkData F (d_ras F d) (d_pdft F d) (Some (l ++ flat_map grad_vals bs))).
    { induction bs as [|b bs IH]; intros l; [cbn; now rewrite app_nil_r|]. destruct b; [exact (IH l)|]. etransitivity; [apply (IH (l ++ [map snd rows]))|]. cbn. now rewrite <- app_assoc. }
    unfold init_opt, add_vals. rewrite W. destruct (d_grad F d); reflexivity.
  Qed.

  Lemma read_log_items l : Forall item_ok l -> exists N, forall n d, N <= n ->
    read_log F float n (log_text l) d = Done (fold_left item_meaning l d) [].
  Proof.
    induction 1 as [|i l Hi _ [N IH]]; [exists 1; intros [|n] d H; [lia | reflexivity]|].
    assert (G : exists M, forall n d, M <= n -> exists n', N <= n' /\ read_log F float n (item_text i ++ log_text l) d = read_log F float n' (log_text l) (item_meaning d i)).
    { destruct i as [s | h s m | h s m b st | h s m b st | h s m b st]; cbn [item_ok item_text item_meaning] in *.
      - exists (S N). intros [|n] d Hn; [lia|]. exists n. split; [lia|]. cbn. now rewrite Hi.
      - destruct Hi as (H1 & H2 & H3 & H4). exists (S N). intros [|n] d Hn; [lia|]. exists n. split; [lia|]. cbn. rewrite H1.
        destruct (String.eqb_spec (strip m) "&ALASKA"); [contradiction|]. destruct (String.eqb_spec (strip m) "&RASSCF"); [contradiction|].
        destruct (String.eqb_spec (strip m) "&MCPDFT"); [contradiction|]. reflexivity.
      - destruct Hi as (H1 & H2 & H3 & H4).
        destruct (module_ok stop_ras flag_ras (ras_handler F float) ras_ok ras_text ras_eff ras_blk eq_refl (fun s0 h0 => starts_conflict stop_ras flag_ras s0 eq_refl h0) b st H3 H4) as [M HM].
        exists (S (N + M)). intros [|n] d Hn; [lia|]. exists n. split; [lia|]. cbn [app read_log readline]. rewrite H1, H2. cbn [String.eqb Ascii.eqb Bool.eqb].
        unfold read_rasscf. rewrite <- app_assoc. cbn [app]. rewrite HM by lia. now rewrite eff_ras.
      - destruct Hi as (H1 & H2 & H3 & H4).
        destruct (module_ok stop_pdft flag_pdft (pdft_handler F float) pdft_ok pdft_text pdft_eff pdft_blk eq_refl (fun s0 h0 => starts_conflict stop_pdft flag_pdft s0 eq_refl h0) b st H3 H4) as [M HM].
        exists (S (N + M)). intros [|n] d Hn; [lia|]. exists n. split; [lia|]. cbn [app read_log readline]. rewrite H1, H2. cbn [String.eqb Ascii.eqb Bool.eqb].
        unfold read_mcpdft. rewrite <- app_assoc. cbn [app]. rewrite HM by lia. now rewrite eff_pdft.
      - destruct Hi as (H1 & H2 & H3 & H4).
        destruct (module_ok stop_grad flag_grad (grad_handler F float) grad_ok grad_text grad_eff grad_blk eq_refl (fun s0 h0 => starts_conflict stop_grad flag_grad s0 eq_refl h0) b st H3 H4) as [M HM].
        exists (S (N + M)). intros [|n] d Hn; [lia|]. exists n. split; [lia|]. cbn [app read_log readline]. rewrite H1, H2. cbn [String.eqb Ascii.eqb Bool.eqb].
        unfold read_alaska. rewrite <- app_assoc. cbn [app]. rewrite HM by lia. now rewrite eff_grad. }
    destruct G as [M G]. exists M. intros n d Hn. destruct (G n d Hn) as (n' & Hn' & E). change (log_text (i :: l)) with (item_text i ++ log_text l). cbn [fold_left]. rewrite E. now apply IH.
  Qed.
Theorem C44_complete_log_partial : forall l, Forall item_ok l ->
    exists N, forall n, N <= n -> read_molcas_logfile F float n (log_text l) = Done (log_meaning l) [].
  Proof. intros l H. destruct (read_log_items l H) as [N HN]. exists N. intros n Hn. now apply HN. Qed.

  (** ** Reading never ends once a module has no stop line *)
  (** no amount of fuel suffices *)
  Definition never_done {A} (r : run A) : Prop := match r with Done _ _ => False | _ => True end.
  Definition is_tail (r rest : list string) : Prop := exists p, rest = p ++ r.
  Lemma tail_refl r : is_tail r r. Proof. now exists []. Qed.
  Lemma tail_read rest l r : readline rest = (l, r) -> is_tail r rest.
  Proof. destruct rest as [|x rest]; cbn; intros [= <- <-]; [now exists [] | now exists [x]]. Qed.
  Lemma tail_trans a b c : is_tail a b -> is_tail b c -> is_tail a c.
  Proof. intros [p ->] [q ->]. exists (q ++ p). now rewrite app_assoc. Qed.
  Lemma tail_skip n l rest l' r : skip n l rest = (l', r) -> is_tail r rest.
  Proof.
    revert l rest. induction n as [|n IH]; intros l rest; cbn; [intros [= <- <-]; apply tail_refl|].
    destruct (readline rest) as [l1 r1] eqn:E. intros H. eapply tail_trans; [eapply IH; eauto | eapply tail_read; eauto].
  Qed.
  Lemma energies_tail n l rest acc x r : energies F float n l rest acc = Done x r -> is_tail r rest.
  Proof.
    revert l rest acc. induction n as [|n IH]; intros l rest acc; cbn; [discriminate|]. destruct (starts l _); [|intros [= <- <-]; apply tail_refl].
    destruct (last_float _ _ _); [|discriminate]. destruct (readline rest) as [l1 r1] eqn:E. intros H. eapply tail_trans; [eapply IH; eauto | eapply tail_read; eauto].
  Qed.
  Lemma rows_tail n l rest acc x r : grad_rows F float n l rest acc = Done x r -> is_tail r rest.
  Proof.
    revert l rest acc. induction n as [|n IH]; intros l rest acc; cbn; [discriminate|]. destruct (starts l _); [intros [= <- <-]; apply tail_refl|].
    destruct (row_floats _ _ _); [|discriminate]. destruct (readline rest) as [l1 r1] eqn:E. intros H. eapply tail_trans; [eapply IH; eauto | eapply tail_read; eauto].
  Qed.
  Definition handler_tail (fn : nat -> string -> list string -> data -> run data) : Prop :=
    forall n l rest d d' r, fn n l rest d = Done d' r -> is_tail r rest.
  Lemma ras_tail : handler_tail (ras_handler F float).
  Proof.
    intros n l rest d d' r. unfold ras_handler. destruct (skip 3 l rest) as [l1 r1] eqn:E. destruct (energies _ _ _ _ _ _) eqn:E2; try discriminate.
    intros [= _ <-]. eapply tail_trans; [eapply energies_tail; eauto | eapply tail_skip; eauto].
  Qed.
  Lemma pdft_tail : handler_tail (pdft_handler F float).
  Proof. intros n l rest d d' r. unfold pdft_handler. destruct (last_float _ _ _); [|discriminate]. intros [= _ <-]. apply tail_refl. Qed.
  Lemma grad_tail : handler_tail (grad_handler F float).
  Proof.
    intros n l rest d d' r. unfold grad_handler. destruct (skip 8 l rest) as [l1 r1] eqn:E. destruct (grad_rows _ _ _ _ _ _) eqn:E2; try discriminate.
    intros [= _ <-]. eapply tail_trans; [eapply rows_tail; eauto | eapply tail_skip; eauto].
  Qed.
  Lemma loop_never stop flag fn : handler_tail fn -> starts "" stop = false ->
    forall n line rest d, starts line stop = false -> (forall s, In s rest -> starts s stop = false) -> never_done (loop n stop flag fn line rest d).
  Proof.
    intros Ht H0. induction n as [|n IH]; intros line rest d Hl Hr; [exact I|]. cbn. rewrite Hl. destruct (readline rest) as [l r] eqn:E.
    assert (Hl' : starts l stop = false) by (destruct rest as [|x rest]; cbn in E; injection E as <- <-; [exact H0 | apply Hr; now left]).
    assert (Hr' : forall r', is_tail r' r -> forall s, In s r' -> starts s stop = false).
    { intros r' [p ->] s Hs. apply tail_read in E as [q ->]. apply Hr. apply in_or_app. right. apply in_or_app. now right. }
    destruct (starts l flag); [|apply IH; [exact Hl' | apply Hr', tail_refl]].
    destruct (fn n l r d) as [d' r'| |] eqn:Ef; try exact I. apply IH; [exact Hl' | apply Hr'; eapply Ht; eauto].
  Qed.
  (** more fuel gives the same result *)
  Lemma energies_mono n m l rest acc x r : n <= m -> energies F float n l rest acc = Done x r -> energies F float m l rest acc = Done x r.
  Proof.
    revert m l rest acc. induction n as [|n IH]; intros m l rest acc Hm; [discriminate|]. destruct m as [|m]; [lia|]. cbn.
    destruct (starts l _); [|auto]. destruct (last_float _ _ _); [|discriminate]. destruct (readline rest). apply IH. lia.
  Qed.
  Lemma rows_mono n m l rest acc x r : n <= m -> grad_rows F float n l rest acc = Done x r -> grad_rows F float m l rest acc = Done x r.
  Proof.
    revert m l rest acc. induction n as [|n IH]; intros m l rest acc Hm; [discriminate|]. destruct m as [|m]; [lia|]. cbn.
    destruct (starts l _); [auto|]. destruct (row_floats _ _ _); [|discriminate]. destruct (readline rest). apply IH. lia.
  Qed.
  Definition handler_mono (fn : nat -> string -> list string -> data -> run data) : Prop :=
    forall n m l rest d d' r, n <= m -> fn n l rest d = Done d' r -> fn m l rest d = Done d' r.
  Lemma ras_mono : handler_mono (ras_handler F float).
  Proof.
    intros n m l rest d d' r Hm. unfold ras_handler. destruct (skip 3 l rest). destruct (energies F float n _ _ _) eqn:E; try discriminate.
    apply (energies_mono _ m) in E; [|exact Hm]. now rewrite E.
  Qed.
  Lemma pdft_mono : handler_mono (pdft_handler F float).
  Proof. intros n m l rest d d' r Hm. unfold pdft_handler. auto. Qed.
  Lemma grad_mono : handler_mono (grad_handler F float).
  Proof.
    intros n m l rest d d' r Hm. unfold grad_handler. destruct (skip 8 l rest). destruct (grad_rows F float n _ _ _) eqn:E; try discriminate.
    apply (rows_mono _ m) in E; [|exact Hm]. now rewrite E.
  Qed.
  Lemma loop_mono stop flag fn : handler_mono fn -> forall n m line rest d d' r, n <= m ->
    loop n stop flag fn line rest d = Done d' r -> loop m stop flag fn line rest d = Done d' r.
  Proof.
    intros Hf. induction n as [|n IH]; intros m line rest d d' r Hm; [discriminate|]. destruct m as [|m]; [lia|]. cbn.
    destruct (starts line stop); [auto|]. destruct (readline rest) as [l r1]. destruct (starts l flag); [|apply IH; lia].
    destruct (fn n l r1 d) as [d1 r2| |] eqn:E; try discriminate. apply (Hf _ m) in E; [|lia]. rewrite E. apply IH. lia.
  Qed.

  (** Every log that breaks off inside a module: a complete part, a header, a body without the stop line. *)
Theorem C44_truncated_hangs : forall l head s name body n, Forall item_ok l -> starts head "()()()" = true ->
    In (strip name) ["&RASSCF"; "&MCPDFT"; "&ALASKA"] ->
    (forall x, In x body -> starts x stop_ras = false /\ starts x stop_pdft = false /\ starts x stop_grad = false) ->
    never_done (read_molcas_logfile F float n (log_text l ++ head :: s :: name :: body)).
  Proof.
    intros l head s name body n Hl Hh Hn Hb. unfold read_molcas_logfile. generalize (mkData F None None None) as d. revert n.
    assert (B : forall n d, never_done (read_log F float n (head :: s :: name :: body) d)).
    { intros [|n] d; [exact I|]. cbn [read_log readline]. rewrite Hh. cbn in Hn. destruct Hn as [E|[E|[E|[]]]]; rewrite <- E; cbn [String.eqb Ascii.eqb Bool.eqb].
      - unfold read_rasscf. match goal with |- context [loop ?n ?a ?b ?c ?e ?f ?g] => pose proof (loop_never a b c ras_tail eq_refl n e f g eq_refl) as W; destruct (loop n a b c e f g) end; try exact I.
        exfalso. apply W. intros x Hx. now apply Hb.
      - unfold read_mcpdft. match goal with |- context [loop ?n ?a ?b ?c ?e ?f ?g] => pose proof (loop_never a b c pdft_tail eq_refl n e f g eq_refl) as W; destruct (loop n a b c e f g) end; try exact I.
        exfalso. apply W. intros x Hx. now apply Hb.
      - unfold read_alaska. match goal with |- context [loop ?n ?a ?b ?c ?e ?f ?g] => pose proof (loop_never a b c grad_tail eq_refl n e f g eq_refl) as W; destruct (loop n a b c e f g) end; try exact I.
        exfalso. apply W. intros x Hx. now apply Hb. }
    set (R := head :: s :: name :: body) in *. clearbody R. clear Hh Hn Hb.
    induction Hl as [|i l Hi _ IH]; intros n d; [apply B|]. cbn [log_text flat_map]. rewrite <- app_assoc. fold (log_text l).
    destruct n as [|n]; [exact I|].
    destruct i as [x | h x m | h x m b st | h x m b st | h x m b st]; cbn [item_ok item_text app read_log readline] in *.
    - rewrite Hi. apply IH.
    - destruct Hi as (H1 & H2 & H3 & H4). rewrite H1.
      destruct (String.eqb_spec (strip m) "&ALASKA"); [contradiction|]. destruct (String.eqb_spec (strip m) "&RASSCF"); [contradiction|].
      destruct (String.eqb_spec (strip m) "&MCPDFT"); [contradiction|]. apply IH.
    - destruct Hi as (H1 & H2 & H3 & H4). rewrite H1, H2. cbn [String.eqb Ascii.eqb Bool.eqb].
      destruct (module_ok stop_ras flag_ras (ras_handler F float) ras_ok ras_text ras_eff ras_blk eq_refl (fun s0 h0 => starts_conflict stop_ras flag_ras s0 eq_refl h0) b st H3 H4) as [M HM].
      unfold read_rasscf. rewrite <- app_assoc. cbn [app].
      match goal with |- context [loop n ?a ?b ?c ?e ?f ?g] => destruct (loop n a b c e f g) as [d' r'| |] eqn:Ed end; try exact I.
      assert (r' = log_text l ++ R) as -> by (apply (loop_mono _ _ _ ras_mono _ (M + n)) in Ed; [|lia]; rewrite HM in Ed by lia; now injection Ed).
      apply IH.
    - destruct Hi as (H1 & H2 & H3 & H4). rewrite H1, H2. cbn [String.eqb Ascii.eqb Bool.eqb].
      destruct (module_ok stop_pdft flag_pdft (pdft_handler F float) pdft_ok pdft_text pdft_eff pdft_blk eq_refl (fun s0 h0 => starts_conflict stop_pdft flag_pdft s0 eq_refl h0) b st H3 H4) as [M HM].
      unfold read_mcpdft. rewrite <- app_assoc. cbn [app].
      match goal with |- context [loop n ?a ?b ?c ?e ?f ?g] => destruct (loop n a b c e f g) as [d' r'| |] eqn:Ed end; try exact I.
      assert (r' = log_text l ++ R) as -> by (apply (loop_mono _ _ _ pdft_mono _ (M + n)) in Ed; [|lia]; rewrite HM in Ed by lia; now injection Ed).
      apply IH.
    - destruct Hi as (H1 & H2 & H3 & H4). rewrite H1, H2. cbn [String.eqb Ascii.eqb Bool.eqb].
      destruct (module_ok stop_grad flag_grad (grad_handler F float) grad_ok grad_text grad_eff grad_blk eq_refl (fun s0 h0 => starts_conflict stop_grad flag_grad s0 eq_refl h0) b st H3 H4) as [M HM].
      unfold read_alaska. rewrite <- app_assoc. cbn [app].
      match goal with |- context [loop n ?a ?b ?c ?e ?f ?g] => destruct (loop n a b c e f g) as [d' r'| |] eqn:Ed end; try exact I.
      assert (r' = log_text l ++ R) as -> by (apply (loop_mono _ _ _ grad_mono _ (M + n)) in Ed; [|lia]; rewrite HM in Ed by lia; now injection Ed).
      apply IH.
  Qed.
End Float.
Print Assumptions C44_complete_log_partial.
Print Assumptions C44_truncated_hangs.

(** Consequently reading does not terminate on every input, whatever numbers look like. *)
Theorem C44_refuted : exists lines, forall (F : Type) (float : string -> res F) n, read_molcas_logfile F float n lines = More.
Proof.
  exists ["()()()()"; "  "; "  &RASSCF "]. intros F float [|n]; [reflexivity|]. unfold read_molcas_logfile. cbn [read_log readline starts String.prefix ascii_dec].
  change (strip "  &RASSCF ") with "&RASSCF". cbn. unfold read_rasscf.
  assert (W : forall d n line, starts line stop_ras = false -> read_module_loop F n stop_ras flag_ras (ras_handler F float) line [] d = More).
  { intros d. induction n0 as [|k IH]; intros line Hl; [reflexivity|]. cbn [read_module_loop readline]. rewrite Hl. cbn. now apply IH. }
  now rewrite W.
Qed.
Print Assumptions C44_refuted.

(** A complete log with two modules; numbers are the lengths of their words *)
Definition ex_float (w : string) : res nat := Ok (String.length w).
Definition ex_log : list (item nat) :=
  [Junk nat "Welcome"; Ras nat "()()()()" "" " &RASSCF " [RPlain nat "iterations"; REnergies nat "      Final state energy(ies):" "----" "" [("::    RASSCF root number  1 Total energy: -1.50", 5); ("::    RASSCF root number  2 Total energy: -1.5", 4)] "end"; RPlain nat "bye"] "--- Stop Module: rasscf at noon";
   Other nat "()()()()" "" "&SEWARD"; Junk nat "text";
   Grad nat "()()()()" "" "&ALASKA" [GTable nat " *              Molecular gradients               *" ["1"; "2"; "3"; "4"; "5"; "6"; "7"] [("H 0.1 0.22 0.333", [3; 4; 5])] " -----"] "--- Stop Module: alaska"].
Example C44_example : Forall (item_ok nat ex_float) ex_log /\
  read_molcas_logfile nat ex_float 50 (log_text nat ex_log) = Done (mkData nat (Some [[5; 4]]) None (Some [[[3; 4; 5]]])) [] /\
  read_molcas_logfile nat ex_float 500 (firstn 9 (log_text nat ex_log)) = More.
Proof. split; [|split; vm_compute; reflexivity]. repeat constructor; cbn; discriminate. Qed.
