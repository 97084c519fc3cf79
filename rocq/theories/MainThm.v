(** C65: the command line and the prompt. *)
From Coq Require Import ZArith NArith Bool Ascii String List Arith Lia.
From Verif Require Import Path Main.
Import ListNotations.
Local Open Scope list_scope.
Local Open Scope nat_scope.

(** * Specification *)
(** What an option means; [-i...] and [-q...] whatever follows the letter. *)
Inductive meaning : Type := MInteractive | MNoLibrary | MQuiet.
Inductive option_is : str -> meaning -> Prop :=
| OptI t : option_is (txt "-i" ++ t) MInteractive
| OptQ t : option_is (txt "-q" ++ t) MQuiet
| OptInteractive : option_is (txt "--interactive") MInteractive
| OptNoLibs : option_is (txt "--no-libs") MNoLibrary
| OptQuiet : option_is (txt "--quiet") MQuiet.
Definition dashed (a : str) : Prop := exists t, a = "-"%char :: t.
(** [args] are options with the meanings [ms], then (after -- or not) the rest. *)
Inductive split_args : list str -> list meaning -> list str -> Prop :=
| SplitEnd : split_args [] [] []
| SplitFile f r : ~ dashed f -> split_args (f :: r) [] (f :: r)
| SplitDashes r : split_args (txt "--" :: r) [] r
| SplitOption a m r ms rest : option_is a m -> split_args r ms rest -> split_args (a :: r) (m :: ms) rest.
(** [args] begin with options, then comes an argument with a dash that is none. *)
Inductive wrong_option : list str -> str -> Prop :=
| WrongHere a r : dashed a -> a <> txt "--" -> (forall m, ~ option_is a m) -> wrong_option (a :: r) a
| WrongLater a m r f : option_is a m -> wrong_option r f -> wrong_option (a :: r) f.
Definition has (m : meaning) (ms : list meaning) : bool :=
  existsb (fun x => match x, m with MInteractive, MInteractive | MNoLibrary, MNoLibrary | MQuiet, MQuiet => true | _, _ => false end) ms.
Definition opts_of (o : opts) (ms : list meaning) : opts :=
  Opts (o_interactive o || has MInteractive ms) (o_library o && negb (has MNoLibrary ms)) (o_quiet o || has MQuiet ms).

Lemma str_eqb_eq a b : str_eqb a b = true -> a = b.
Proof. unfold str_eqb. destruct (list_eq_dec ascii_dec a b); congruence. Qed.
Lemma option_dashed a m : option_is a m -> dashed a.
Proof. destruct 1; eexists; reflexivity. Qed.

Lemma option_cases a m : option_is a m ->
  (exists t, a = txt "-i" ++ t) \/ (exists t, a = txt "-q" ++ t) \/ a = txt "--interactive" \/ a = txt "--no-libs" \/ a = txt "--quiet".
Proof. destruct 1; eauto 6. Qed.

(** One step of handle_flags, by cases. *)
Inductive head_case (o : opts) (a : str) (r : list str) : parsed -> Prop :=
| HFile : ~ dashed a -> head_case o a r (POk o (a :: r))
| HDashes : a = txt "--" -> head_case o a r (POk o r)
| HOpt m : option_is a m -> head_case o a r (handle_flags (opts_of o [m]) r)
| HWrong : dashed a -> a <> txt "--" -> (forall m, ~ option_is a m) -> head_case o a r (PUnknown a).
Lemma opts1 o : set_interactive o = opts_of o [MInteractive] /\ set_no_library o = opts_of o [MNoLibrary] /\ set_quiet o = opts_of o [MQuiet].
Proof. destruct o as [[] [] []]; auto. Qed.
Lemma handle_head o a r : head_case o a r (handle_flags o (a :: r)).
Proof.
  destruct (opts1 o) as (E1 & E2 & E3). cbn [handle_flags].
  destruct a as [|c t]; [apply HFile; intros [t H]; discriminate|].
  destruct (Ascii.eqb_spec c "-"%char) as [->|N]; [|apply HFile; intros [t' H]; injection H as -> _; contradiction].
  destruct t as [|d u]. { apply HWrong; [eexists; reflexivity|discriminate|]. intros m H. inversion H. }
  destruct (Ascii.eqb_spec d "-"%char) as [->|N1].
  - destruct u as [|x u]; [now apply HDashes|].
    destruct (str_eqb _ (txt "--interactive")) eqn:Q1. { rewrite E1. apply HOpt. apply str_eqb_eq in Q1. rewrite Q1. constructor. }
    destruct (str_eqb _ (txt "--no-libs")) eqn:Q2. { rewrite E2. apply HOpt. apply str_eqb_eq in Q2. rewrite Q2. constructor. }
    destruct (str_eqb _ (txt "--quiet")) eqn:Q3. { rewrite E3. apply HOpt. apply str_eqb_eq in Q3. rewrite Q3. constructor. }
    apply HWrong; [eexists; reflexivity|discriminate|].
    intros m H. apply option_cases in H. destruct H as [[t K]|[[t K]|[K|[K|K]]]]; try discriminate.
    + rewrite K in Q1. vm_compute in Q1. discriminate.
    + rewrite K in Q2. vm_compute in Q2. discriminate.
    + rewrite K in Q3. vm_compute in Q3. discriminate.
  - destruct (Ascii.eqb_spec d "i"%char) as [->|N2]. { rewrite E1. apply HOpt. apply (OptI u). }
    destruct (Ascii.eqb_spec d "q"%char) as [->|N3]. { rewrite E3. apply HOpt. apply (OptQ u). }
    apply HWrong; [eexists; reflexivity|intros K; injection K as K _; contradiction|].
    intros m H. apply option_cases in H.
    destruct H as [[t K]|[[t K]|[K|[K|K]]]]; cbn in K; injection K as K1 K2; subst; contradiction.
Qed.
Lemma opts_of_app o m ms : opts_of (opts_of o [m]) ms = opts_of o (m :: ms).
Proof. destruct o as [i l q], m; unfold opts_of; cbn; destruct i, l, q; cbn; rewrite ?orb_true_r, ?andb_true_r, ?andb_false_r; reflexivity. Qed.

Lemma option_unique a m m' : option_is a m -> option_is a m' -> m = m'.
Proof.
  intros H1 H2. destruct H1; inversion H2; subst; try reflexivity; try discriminate.
Qed.

(** The options are recognised exactly, and the rest is left as it is. *)
Theorem C65_options :
  forall args o ms rest, split_args args ms rest -> handle_flags o args = POk (opts_of o ms) rest.
Proof.
  intros args o ms rest H. revert o. induction H as [|f r N|r|a m r ms rest Hm Hs IH]; intros o.
  - cbn. destruct o as [[] [] []]; reflexivity.
  - pose proof (handle_head o f r) as C. replace (opts_of o []) with o by (destruct o as [[] [] []]; reflexivity).
    inversion C as [K Q|K Q|m K Q|K1 K2 K3 Q]; subst; auto; exfalso; apply N; [eexists; reflexivity|now apply option_dashed in K|exact K1].
  - cbn. destruct o as [[] [] []]; reflexivity.
  - pose proof (handle_head o a r) as C. inversion C as [K Q|K Q|m' K Q|K1 K2 K3 Q].
    + exfalso. apply K. now apply option_dashed in Hm.
    + exfalso. subst a. inversion Hm.
    + assert (m' = m) as -> by (eapply option_unique; eassumption). transitivity (handle_flags (opts_of o [m]) r); [symmetry; exact Q|]. rewrite IH. now rewrite opts_of_app.
    + exfalso. exact (K3 _ Hm).
Qed.

Theorem C65_unknown_option :
  forall args o f, wrong_option args f -> handle_flags o args = PUnknown f.
Proof.
  intros args o f H. revert o. induction H as [a r D N O|a m r f Hm Hw IH]; intros o; pose proof (handle_head o a r) as C;
    inversion C as [K Q|K Q|m' K Q|K1 K2 K3 Q].
  - contradiction.
  - contradiction.
  - exfalso. exact (O _ K).
  - symmetry; exact Q.
  - exfalso. apply K. now apply option_dashed in Hm.
  - exfalso. subst a. inversion Hm.
  - transitivity (handle_flags (opts_of o [m']) r); [symmetry; exact Q|apply IH].
  - exfalso. exact (K3 _ Hm).
Qed.
(** There is no third case. *)
Theorem C65_arguments_complete :
  forall args, (exists ms rest, split_args args ms rest) \/ (exists f, wrong_option args f).
Proof.
  induction args as [|a r IH]; [left; exists [], []; constructor|].
  pose proof (handle_head no_opts a r) as C. inversion C as [K Q|K Q|m K Q|K1 K2 K3 Q].
  - left. exists [], (a :: r). now constructor.
  - subst a. left. exists [], r. constructor.
  - destruct IH as [(ms & rest & H)|(f & H)]; [left; exists (m :: ms), rest; econstructor; eassumption|right; exists f; econstructor; eassumption].
  - right. exists a. now constructor.
Qed.

Lemma command_line_spec rest : forall n acc, n <= List.length rest -> command_line n rest acc = firstn n rest ++ acc.
Proof.
  induction n as [|n IH]; intros acc H; [reflexivity|]. cbn [command_line]. rewrite IH by lia.
  assert (K : firstn (S n) rest = firstn n rest ++ [nth n rest []]).
  { clear -H. revert n H. induction rest as [|x l IH]; intros n H; [cbn in H; lia|]. destruct n as [|n]; [reflexivity|].
    cbn in H. cbn [firstn nth app]. f_equal. rewrite <- IH by lia. reflexivity. }
  rewrite K, <- app_assoc. reflexivity.
Qed.

Section Run.
  Variables S F V : Type.
  Variable voidp : V -> bool.
  Variable prelude : option S.
  Variable library : S -> option S.
  Variable import_ : S -> str -> option S.
  Variable load_ : S -> str -> option S.
  Variable eval : S -> F -> option (list V * S).
  Variable set_command_line : S -> list str -> S.
  Notation main := (main S F V voidp prelude library import_ load_ eval set_command_line).
  Notation prompt := (prompt S F V voidp eval).

  (** A session at the prompt: the forms are evaluated in order, each in the state that the
      one before left; [None]: the process ended during the last of them. *)
  Inductive session : S -> list F -> list (list V) -> option S -> Prop :=
  | SesEnd s : session s [] [] (Some s)
  | SesForm s x r vs s1 l e : eval s x = Some (vs, s1) -> session s1 r l e -> session s (x :: r) (vs :: l) e
  | SesStop s x r : eval s x = None -> session s (x :: r) [] None.
  (** What is shown for the results of a form: a single value unless it is void, otherwise
      every value. *)
  Definition shown (vs : list V) (o : list (out V)) : Prop :=
    match vs with
    | [v] => (voidp v = true /\ o = []) \/ (voidp v = false /\ o = [OValue V v])
    | _ => o = map (OValue V) vs
    end.
  Theorem C65_prompt :
    forall input s, exists results e os,
      session s input results e /\ Forall2 shown results os
      /\ prompt s input = (List.concat (map (fun o => OPrompt V :: o) os) ++ [OPrompt V],
                           match e with Some s' => EExit S 0 (Some s') | None => EInside S end).
  Proof.
    induction input as [|x r IH]; intros s.
    - exists [], (Some s), []. repeat split; constructor.
    - cbn [Main.prompt]. destruct (eval s x) as [[vs s1]|] eqn:Q.
      + destruct (IH s1) as (l & e & os & H1 & H2 & H3). rewrite H3. exists (vs :: l), e, (show V voidp vs :: os).
        split; [econstructor; eassumption|]. split.
        * constructor; [|exact H2]. destruct vs as [|v [|w vs]]; cbn; auto. destruct (voidp v) eqn:W; auto.
        * cbn [map List.concat app]. now rewrite <- app_assoc.
      + exists [], None, []. split; [now constructor|]. split; [constructor|reflexivity].
  Qed.

  (** An unknown option: a message, status 1, nothing is evaluated. *)
  Theorem C65_unknown_option_exits :
    forall args input f, wrong_option args f -> main args input = ([OUnknown V f], EExit S 1 None).
  Proof. intros args input f H. unfold Main.main. now rewrite (C65_unknown_option args no_opts f H). Qed.

  (** Otherwise: the banner unless -q, the prelude, the library unless --no-libs; the rest of
      the arguments is the command line; its first argument is imported, or loaded with -i or
      --no-libs; with -i, or without any argument, the prompt follows. *)
  Theorem C65_main :
    forall args input ms rest, split_args args ms rest ->
    forall s0 s1 s2, prelude = Some s0 ->
    (if has MNoLibrary ms then Some s0 else library s0) = Some s1 ->
    match rest with
    | [] => Some (set_command_line s1 [])
    | f :: _ => if has MInteractive ms || has MNoLibrary ms then load_ (set_command_line s1 rest) f
                else import_ (set_command_line s1 rest) f
    end = Some s2 ->
    main args input =
      ((if has MQuiet ms then [] else [OBanner V]) ++ (if (match args with [] => true | _ => false end) || has MInteractive ms then fst (prompt s2 input) else []),
       if (match args with [] => true | _ => false end) || has MInteractive ms then snd (prompt s2 input) else EExit S 0 (Some s2)).
  Proof.
    intros args input ms rest H s0 s1 s2 E1 E2 E3. unfold Main.main. rewrite (C65_options args no_opts ms rest H).
    unfold opts_of. cbn [o_interactive o_library o_quiet no_opts orb andb]. rewrite E1. cbn [bind].
    assert (L : (if negb (has MNoLibrary ms) then library s0 else Some s0) = Some s1) by (rewrite <- E2; destruct (has MNoLibrary ms); reflexivity).
    rewrite L. cbn [bind]. rewrite command_line_spec by lia. rewrite firstn_all, app_nil_r.
    assert (M : match rest with
                | [] => Some (set_command_line s1 rest)
                | f :: _ => if negb (has MInteractive ms) && negb (has MNoLibrary ms) then import_ (set_command_line s1 rest) f else load_ (set_command_line s1 rest) f
                end = Some s2).
    { rewrite <- E3. destruct rest; [reflexivity|]. destruct (has MInteractive ms), (has MNoLibrary ms); reflexivity. }
    rewrite M. cbn [bind].
    replace (List.length args =? 0) with (match args with [] => true | _ => false end) by (destruct args; reflexivity).
    destruct ((match args with [] => true | _ => false end) || has MInteractive ms); [destruct (prompt s2 input) as [o e]|]; reflexivity.
  Qed.
  (** Only options, without -i: nothing is run and no prompt is shown. *)
  Theorem C65_no_prompt_refuted :
    forall input s0 s1, prelude = Some s0 -> library s0 = Some s1 ->
    main [txt "-q"] input = ([], EExit S 0 (Some (set_command_line s1 []))).
  Proof.
    intros input s0 s1 E1 E2. erewrite (C65_main [txt "-q"] input [MQuiet] []); [| |exact E1|cbn; exact E2|reflexivity]; [reflexivity|].
    econstructor; [apply (OptQ [])|constructor].
  Qed.
End Run.

(** * Examples *)
Example C65_ex_split : split_args [txt "-q"; txt "--no-libs"; txt "prog.min"; txt "-i"; txt ""] [MQuiet; MNoLibrary] [txt "prog.min"; txt "-i"; txt ""].
Proof.
  econstructor; [apply (OptQ [])|]. econstructor; [constructor|]. constructor. intros [t H]. discriminate.
Qed.
Example C65_ex_dashes : split_args [txt "-iq"; txt "--"; txt "-x"] [MInteractive] [txt "-x"].
Proof. econstructor; [apply (OptI (txt "q"))|]. constructor. Qed.
Example C65_ex_wrong : wrong_option [txt "-q"; txt "-"] (txt "-") /\ wrong_option [txt "--loud"; txt "x"] (txt "--loud").
Proof.
  split.
  - econstructor; [apply (OptQ [])|]. constructor; [eexists; reflexivity|discriminate|]. intros m H. inversion H.
  - constructor; [eexists; reflexivity|discriminate|]. intros m H. inversion H.
Qed.
Example C65_ex_main :
  main nat nat nat (Nat.eqb 0) (Some 0) (fun s => Some (s + 10)) (fun s f => Some (s + List.length f)) (fun s f => None)
    (fun s x => Some (repeat s x, S s)) (fun s l => s + List.length l) [txt "a.min"; txt "b"] [1; 2]
  = ([OBanner nat], EExit nat 0 (Some 17))
  /\ main nat nat nat (Nat.eqb 0) (Some 0) (fun s => Some s) (fun s f => None) (fun s f => None)
    (fun s x => Some (repeat s x, S s)) (fun s l => s) [] [1; 1; 0; 2]
  = ([OBanner nat; OPrompt nat; OPrompt nat; OValue nat 1; OPrompt nat; OPrompt nat; OValue nat 3; OValue nat 3; OPrompt nat], EExit nat 0 (Some 4)).
Proof. vm_compute. auto. Qed.

Print Assumptions C65_options.
Print Assumptions C65_unknown_option.
Print Assumptions C65_arguments_complete.
Print Assumptions C65_prompt.
Print Assumptions C65_unknown_option_exits.
Print Assumptions C65_main.
Print Assumptions C65_no_prompt_refuted.
