(** C70: from the text of a program to what is printed. *)
From Coq Require Import ZArith NArith Bool Ascii String List Arith Lia.
From Verif Require Import Base Heap HeapM Ast Sem Reader Check CheckThm Code Compile CompThm Opt OptRel OptFun OptProg OptThm EvalRun Vm Sim SimThm Pipe PipeProofs.
From Verif Require ReaderProofs ReaderThm.
Import ListNotations.
Local Open Scope list_scope.
Local Open Scope nat_scope.

(** The store in which a program starts: the procedures of the system, and the data of the
    program in memory. *)
Lemma boot_heap sys : forall s d d0, heap_of s = d_heap d -> boot_data sys d = Some d0 -> heap_of (boot_store sys s) = d_heap d0.
Proof.
  induction sys as [|[x p] r IH]; intros s d d0 E B; [simpl in B; injection B as <-; exact E|].
  cbn [boot_data] in B. destruct (sys_code p); [|discriminate]. eapply (IH _ (Data _ _ _ _ _)); [|exact B]. cbn. rewrite E. reflexivity.
Qed.

(** What the forms of a program print, given what they denote. *)
Lemma session_prints prim sys d0 stk vc vals n es h out stopped :
  allocates prim -> address_free prim -> system sys -> boot_data sys no_data = Some d0 -> HeapM.extends (d_heap d0) h -> closed h ->
  Forall (fun e => src n (List.length h) e = true /\ topok e = true) es ->
  (forall f es' n', optimize_program f n es = Some (es', n') -> Forall (fun e => wf false true e = true) es') ->
  displays prim (in_heap h (boot_store sys no_store)) es out stopped ->
  exists f es' n', optimize_program f n es = Some (es', n') /\ prints prim (with_heap (Thread stk vc vals d0) h) es' out stopped.
Proof.
  intros AL AF SY BD X C F W D.
  destruct (C32_optimiser_terminates es n) as (f0 & [es' n'] & O); [eapply Forall_impl; [|exact F]; intros e [H _]; eapply src_surface; eauto|].
  exists f0, es', n'. specialize (O f0 (le_n _)). split; auto.
  destruct (boot_rel sys no_store no_data d0) as [R NE]; auto; [repeat constructor|discriminate|].
  assert (HH := boot_heap sys no_store no_data d0 eq_refl BD).
  assert (RD : OptProg.ready (in_heap h (boot_store sys no_store))) by (apply ready_in_heap; auto; [apply boot_ready; auto|rewrite HH; auto]).
  eapply displays_prints; [eapply (displays_optimized prim AL AF _ _ _ _ _ _ _ _ RD); [exact F|exact O|exact D]| | |].
  - assert (CO : Forall (fun e => compilable e = true) es').
    { eapply (optimize_compilable n _ f0 es n es' n' (Nat.le_refl n)); [|exact O]. apply forallb_forall. intros e I. rewrite Forall_forall in F. apply F in I. apply I. }
    specialize (W _ _ _ O). rewrite Forall_forall in *. auto.
  - apply (drel_in_heap _ (Thread stk vc vals d0)). exact R.
  - exact NE.
Qed.

(** A program text whose data are core expressions denotes a program; what that program
    displays is what the session prints, and nothing else.  [d0]: the machine with the
    procedures [sys].  [vs], [h]: the data of the text in memory.  The conditions [src],
    [topok] and [wf] are those of C32 and C31. *)
Theorem C70_text_to_output_partial :
  forall prim sys d0 stk vc vals n os txt en vs h,
    allocates prim -> address_free prim -> system sys -> boot_data sys no_data = Some d0 ->
    program_text os txt en -> Forall (core true) os -> places os (d_heap d0) = (vs, h) ->
    HeapM.extends (d_heap d0) h /\ Forall2 (datum_at h) vs os /\
    exists es, Forall2 (denotes h) vs es /\
      forall out stopped,
        Forall (fun e => src n (List.length h) e = true /\ topok e = true) es ->
        (forall f es' n', optimize_program f n es = Some (es', n') -> Forall (fun e => wf false true e = true) es') ->
        displays prim (in_heap h (boot_store sys no_store)) es out stopped ->
        forall out' en', session prim (Thread stk vc vals d0) n txt out' en' <-> out' = out /\ en' = (if stopped then Stopped else en).
Proof.
  intros prim sys d0 stk vc vals n os txt en vs h AL AF SY BD PT CO PL.
  assert (CH : closed (d_heap d0)) by (rewrite <- (boot_heap sys no_store no_data d0 eq_refl BD); apply (rd_heap _ (boot_ready _ SY))).
  destruct (source_ok _ _ _ PT CO _ CH _ _ PL) as (es & S & X & C & DS & DN).
  split; auto. split; auto. exists es. split; auto. intros out stopped F W D out' en'.
  destruct (session_prints prim sys d0 stk vc vals n es h out stopped AL AF SY BD X C F W D) as (f & es' & n' & O & P). split.
  - intros (es2 & h2 & en2 & f2 & es2' & n2' & b & S2 & O2 & P2 & ->). destruct (source_fun _ _ _ _ _ S _ _ _ S2) as (-> & -> & ->).
    assert (Q := C32_optimiser_result_unique _ _ _ _ _ _ O O2). injection Q as <- <-. destruct (prints_fun _ _ _ _ _ P _ _ P2) as [-> ->]. auto.
  - intros [-> ->]. exists es, h, en, f, es', n', stopped. auto.
Qed.

(** A datum that is not a core expression ends the session before it is evaluated (or the
    checker itself goes wrong on it, C27, and there is no session). *)
Theorem C70_ill_formed_partial :
  forall prim sys d0 stk vc vals n os txt vs h,
    allocates prim -> address_free prim -> system sys -> boot_data sys no_data = Some d0 ->
    ill_text os txt -> Forall (core true) os -> places os (d_heap d0) = (vs, h) ->
    exists es, Forall2 (datum_at h) vs os /\ Forall2 (denotes h) vs es /\
      forall out stopped,
        Forall (fun e => src n (List.length h) e = true /\ topok e = true) es ->
        (forall f es' n', optimize_program f n es = Some (es', n') -> Forall (fun e => wf false true e = true) es') ->
        displays prim (in_heap h (boot_store sys no_store)) es out stopped ->
        forall out' en', session prim (Thread stk vc vals d0) n txt out' en' -> out' = out /\ en' = (if stopped then Stopped else BadForm).
Proof.
  intros prim sys d0 stk vc vals n os txt vs h AL AF SY BD PT CO PL.
  assert (CH : closed (d_heap d0)) by (rewrite <- (boot_heap sys no_store no_data d0 eq_refl BD); apply (rd_heap _ (boot_ready _ SY))).
  destruct (source_ill _ _ PT CO _ CH _ _ PL) as (es & X & C & DS & DN & U).
  exists es. split; auto. split; auto. intros out stopped F W D out' en'.
  destruct (session_prints prim sys d0 stk vc vals n es h out stopped AL AF SY BD X C F W D) as (f & es' & n' & O & P).
  intros (es2 & h2 & en2 & f2 & es2' & n2' & b & S2 & O2 & P2 & ->). destruct (U _ _ _ S2) as (-> & -> & ->).
  assert (Q := C32_optimiser_result_unique _ _ _ _ _ _ O O2). injection Q as <- <-. destruct (prints_fun _ _ _ _ _ P _ _ P2) as [-> ->]. auto.
Qed.

(** A datum denotes at most one expression. *)
Theorem C70_denotation_unique h v e e' : denotes h v e -> denotes h v e' -> e = e'.
Proof. apply denotes_fun. Qed.

(** ** A program *)
Lemma program_form s o k os en : ~ In xFF s -> reads s o k -> datum o -> program_text os k en -> program_text (o :: os) s en.
Proof. intros N R D P. apply (ReaderThm.C25_grammar _ _ _ N) in R. destruct R as [t [-> T]]. constructor; auto. Qed.
Lemma program_end s : ~ In xFF s -> reads s no_object [] -> program_text [] s EndOfText.
Proof. intros N R. apply (ReaderThm.C25_grammar _ _ _ N) in R. destruct R as [t [-> T]]. rewrite app_nil_r. constructor; auto. Qed.
Definition text_lines (l : list string) : list byte := List.concat (map (fun s => s2b s ++ [newline]) l).
Definition ex_text : list byte := text_lines
  ["(define-values (add3) (lambda (x) (add x 3))) ; a procedure";
   "(add3 4)";
   "'(a #t [1 . #\b])   #| a list |#";
   "(let-values ([(p q) (values 1 'two)]) (values q p))";
   "(if #f 1 (cons 'yes '#(2)))";
   "(car 7)";
   "(cons 5 6)"]%string.
Definition ex_out : list byte := text_lines ["7"; "(a #t (1 . #\b))"; "two"; "1"; "(yes . #(2))"]%string.
(** The data of the text. *)
Definition ex_os : list obj :=
  [olist [sym "define-values"; olist [sym "add3"]; OPair (sym "lambda") (OPair (olist [sym "x"]) (olist [olist [sym "add"; sym "x"; OFix 3]]))];
   olist [sym "add3"; OFix 4];
   olist [sym "quote"; olist [sym "a"; OTrue; OPair (OFix 1) (OChar "b")]];
   OPair (sym "let-values") (OPair (olist (map (fun b => olist [olist (fst b); snd b]) [([sym "p"; sym "q"], olist [sym "values"; OFix 1; olist [sym "quote"; sym "two"]])]))
                              (olist [olist [sym "values"; sym "q"; sym "p"]]));
   olist [sym "if"; OFalse; OFix 1; olist [sym "cons"; olist [sym "quote"; sym "yes"]; olist [sym "quote"; OVec [OFix 2]]]];
   olist [sym "car"; OFix 7];
   olist [sym "cons"; OFix 5; OFix 6]].
Lemma no_ff l : forallb (fun c => negb (Ascii.eqb c xFF)) l = true -> ~ In xFF l.
Proof. intros H I. rewrite forallb_forall in H. apply H in I. rewrite Ascii.eqb_refl in I. discriminate. Qed.
Ltac is_datum := repeat first [apply DtAtom; exact Logic.I|apply DtPair|apply DtVec; repeat apply Forall_cons; try apply Forall_nil].
Example C70_ex_text : program_text ex_os ex_text EndOfText.
Proof.
  unfold ex_os. repeat (eapply program_form; [apply no_ff; vm_compute; reflexivity|exists 100; vm_compute; reflexivity|is_datum|]).
  apply program_end; [apply no_ff; vm_compute; reflexivity|exists 100; vm_compute; reflexivity].
Qed.
Example C70_ex_core : Forall (core true) ex_os.
Proof.
  assert (A : forall k, core true (sym k)) by (intros k; apply KAtom; exact Logic.I).
  assert (F : forall z, core true (OFix z)) by (intros z; apply KAtom; exact Logic.I).
  assert (Q : forall d, core true (olist [sym "quote"; d])) by (intros d; apply KQuote; simpl; auto).
  assert (S : forall k, symbol (sym k)) by (intros k; left; eexists; reflexivity).
  assert (AP : forall k args, forallb (fun x => negb (String.eqb x k)) (keywords ++ ["call-with-values"; "#%mv-call"; "#%mv-let"]%string)%list = true ->
     (forall e, In e args -> core true e) -> core true (olist (sym k :: args))).
  { intros k args NK AR. apply (KApp true (sym k) args); auto.
    - intros x X E. rewrite forallb_forall in NK. specialize (NK x). rewrite in_app_iff in NK.
      assert (x = k). { unfold sym in E. injection E as E. unfold s2b in E. rewrite <- (string_of_list_ascii_of_string x), <- (string_of_list_ascii_of_string k). congruence. }
      subst. rewrite String.eqb_refl in NK. discriminate NK. auto.
    - intros _. assert (NE : forall x, In x ["call-with-values"; "#%mv-call"; "#%mv-let"]%string -> sym k <> sym x).
      { intros x X E. rewrite forallb_forall in NK. specialize (NK x). rewrite in_app_iff in NK.
        assert (x = k). { unfold sym in E. injection E as E. unfold s2b in E. rewrite <- (string_of_list_ascii_of_string x), <- (string_of_list_ascii_of_string k). congruence. }
        subst. rewrite String.eqb_refl in NK. discriminate NK. auto. }
      split; [intros E; exfalso; eapply NE; [|exact E]; simpl; auto|]. split; apply NE; simpl; auto. }
  unfold ex_os. repeat apply Forall_cons; try apply Forall_nil.
  - apply KDefine; [intros x [<-|[]]; auto|]. apply KLambda; [apply PmCons; auto; constructor|discriminate|]. intros e [<-|[]]. apply AP; [reflexivity|].
    intros e [<-|[<-|[]]]; auto.
  - apply AP; [reflexivity|]. intros e [<-|[]]; auto.
  - auto.
  - apply KLet; [simpl; auto|intros ids e [E|[]]; injection E as <- <-; intros x [<-|[<-|[]]]; auto| |discriminate|].
    + intros b [<-|[]]. apply AP; [reflexivity|]. intros e [<-|[<-|[]]]; auto.
    + intros e [<-|[]]. apply AP; [reflexivity|]. intros e [<-|[<-|[]]]; auto.
  - apply KIf; auto; [apply KAtom; exact Logic.I|]. apply AP; [reflexivity|]. intros e [<-|[<-|[]]]; auto.
  - apply AP; [reflexivity|]. intros e [<-|[]]; auto.
  - apply AP; [reflexivity|]. intros e [<-|[<-|[]]]; auto.
Qed.
Definition ex_heap : heap := snd (places ex_os (heap_of o_store)).
Definition ex_vs : list val := fst (places ex_os (heap_of o_store)).
Definition parsed (n : nat) (h : heap) (v : val) : expr := match hparse h n v with POk e => e | _ => EUnbound end.
Definition parses (n : nat) (h : heap) (v : val) : bool := match hparse h n v with POk _ => true | _ => false end.
(** The expressions that the data denote. *)
Definition ex_es : list expr := map (parsed 50 ex_heap) ex_vs.
Lemma denoted n h vs es : Forall2 (denotes h) vs es -> forallb (parses n h) vs = true -> es = map (parsed n h) vs.
Proof.
  induction 1 as [|v x vs xs D F IH]; intros B; [reflexivity|]. cbn [forallb map] in *. apply andb_true_iff in B. destruct B as [B1 B2]. rewrite <- (IH B2). f_equal.
  unfold parses in B1. unfold parsed. destruct (hparse h n v) as [e| | |] eqn:E; try discriminate. destruct (proj1 (denotes_parses h) _ _ D) as [f P]. eapply hparse_fun; [apply (P f); lia|exact E].
Qed.
Lemma ex_parses : forallb (parses 50 ex_heap) ex_vs = true.
Proof. vm_compute. reflexivity. Qed.
Lemma ex_denoted es : Forall2 (denotes ex_heap) ex_vs es -> es = ex_es.
Proof. intros F. exact (denoted _ _ _ _ F ex_parses). Qed.
Ltac shown := repeat first [apply DaNull|apply DaTrue|apply DaFalse|apply DaSym|apply DaFix|apply DaChar|eapply DaPair; [vm_compute; reflexivity| |]|eapply DaVec; [vm_compute; reflexivity|]|apply DasNil|apply DasCons].
Ltac one_line := eexists; split; [vm_compute; shown|vm_compute; reflexivity].
Example C70_ex_displays : displays o_prim (in_heap ex_heap o_store) ex_es ex_out true.
Proof.
  assert (RE := proj1 (run_ok o_prim 100)).
  change ex_out with ([] ++ text_lines ["7"]%string ++ text_lines ["(a #t (1 . #\b))"]%string ++ text_lines ["two"; "1"]%string ++ text_lines ["(yes . #(2))"]%string ++ []).
  unfold ex_es. set (es := map _ ex_vs). vm_compute in es. subst es.
  eapply DiVal; [apply RE; vm_compute; reflexivity|reflexivity|].
  eapply DiVal; [apply RE; vm_compute; reflexivity|exists [text_lines ["7"]%string]; split; [repeat constructor; one_line|reflexivity]|].
  eapply DiVal; [apply RE; vm_compute; reflexivity|exists [text_lines ["(a #t (1 . #\b))"]%string]; split; [repeat constructor; one_line|reflexivity]|].
  eapply DiVal; [apply RE; vm_compute; reflexivity|exists [text_lines ["two"]%string; text_lines ["1"]%string]; split; [repeat constructor; one_line|reflexivity]|].
  eapply DiVal; [apply RE; vm_compute; reflexivity|exists [text_lines ["(yes . #(2))"]%string]; split; [repeat constructor; one_line|reflexivity]|].
  eapply DiErr; [apply RE; vm_compute; reflexivity|reflexivity].
Qed.
Example C70_ex_session d0 stk vc vals : boot_data o_sys no_data = Some d0 ->
  forall out en, session o_prim (Thread stk vc vals d0) 0 ex_text out en <-> out = ex_out /\ en = Stopped.
Proof.
  intros BD. assert (HH := boot_heap o_sys no_store no_data d0 eq_refl BD).
  destruct (C70_text_to_output_partial o_prim o_sys d0 stk vc vals 0 ex_os ex_text EndOfText ex_vs ex_heap o_prim_allocates o_prim_address_free (proj1 C32_program_conditions) BD C70_ex_text C70_ex_core)
    as (X & DS & es & DN & H).
  { rewrite <- HH. vm_compute. reflexivity. }
  apply ex_denoted in DN. subst es. apply (H ex_out true).
  - unfold ex_es. set (es := map _ ex_vs). vm_compute in es. subst es. repeat constructor.
  - assert (O : exists r, optimize_program 100 0 ex_es = Some r /\ Forall (fun e => wf false true e = true) (fst r)) by (eexists; split; [vm_compute; reflexivity|repeat constructor]).
    destruct O as [[r k] [O W]]. intros f es' n' O'. assert (Q := C32_optimiser_result_unique _ _ _ _ _ _ O O'). injection Q as <- <-. exact W.
  - exact C70_ex_displays.
Qed.
Example C70_ex_boots : exists d0, boot_data o_sys no_data = Some d0.
Proof. eexists. vm_compute. reflexivity. Qed.
(** A text whose second datum is no expression. *)
Example C70_ex_ill : ill_text [OFix 4] (s2b "4 (if 1)").
Proof.
  assert (N : forall l, forallb (fun c => negb (Ascii.eqb c xFF)) l = true -> ~ In xFF l) by exact no_ff.
  assert (R1 : reads (s2b "4 (if 1)") (OFix 4) (s2b " (if 1)")) by (exists 20; reflexivity).
  assert (R2 : reads (s2b " (if 1)") (olist [sym "if"; OFix 1]) []) by (exists 20; reflexivity).
  apply ReaderThm.C25_grammar in R1; [|apply N; reflexivity]. destruct R1 as [t1 [-> T1]].
  apply ReaderThm.C25_grammar in R2; [|apply N; reflexivity]. destruct R2 as [t2 [E T2]].
  apply IllAfter; [exact T1|apply DtAtom; exact Logic.I|]. rewrite E. apply IllHere with (o := olist [sym "if"; OFix 1]); [exact T2|discriminate|].
  intros C. apply CheckThm.C27_checker_accepts_core in C. destruct C as [f C]. destruct f as [|f]; discriminate C.
Qed.

Print Assumptions C70_text_to_output_partial.
Print Assumptions C70_ill_formed_partial.
Print Assumptions C70_denotation_unique.
