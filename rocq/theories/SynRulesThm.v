(** C67: macros defined by rules. *)
From Coq Require Import ZArith NArith Bool Ascii String List Arith Lia.
From Verif Require Import Base Check Expand LibRead LibReadProofs StxCase StxCaseProofs StxCaseThm Template TemplateProofs TemplateThm SynRules SynRulesProofs.
Import ListNotations.
Local Open Scope list_scope.
Local Open Scope nat_scope.

(** * The text of syntax-rules *)
Definition nm (s : string) : list byte := s2b s.
Definition one_rule : pat := PList [PList [PVar (nm "k")] (Some (PVar (nm "p"))); PVar (nm "t")] None.
Definition sr_args : args := AEll [PEll [] (PVar (nm "lit")) [] None] one_rule [] None.
Definition sr_pat : pat := headed PWild sr_args.
Definition one_clause : tmpl :=
  TList [TList [TId (nm "_")] (Some (TId (nm "p"))); TList [TId (nm "syntax"); TId (nm "t")] None] None.
Definition sr_tmpl : tmpl :=
  TList [TId (nm "lambda"); TList [TId (nm "stx")] None;
    TList [TId (nm "syntax-case"); TId (nm "stx"); TList [TRep (TId (nm "lit"))] None; TRep one_clause] None] None.
Lemma sr_pattern_is : sr_pattern = pobj sr_pat. Proof. reflexivity. Qed.
Lemma sr_template_is : sr_template = tobj sr_tmpl. Proof. reflexivity. Qed.

Definition row : Type := list byte * obj * obj.
Definition row_text (r : row) : obj := of_list [OPair (OSym (fst (fst r))) (snd (fst r)); snd r].
Definition form (w : obj) (lits : list (list byte)) (rows : list row) : obj :=
  OPair w (OPair (of_list (map OSym lits)) (of_list (map row_text rows))).
Definition clause_text (r : row) : obj :=
  of_list [OPair (OSym (nm "_")) (strip (snd (fst r))); of_list [OSym (nm "syntax"); strip (snd r)]].
Definition lambda_text (lits : list (list byte)) (rows : list row) : obj :=
  of_list [OSym (nm "lambda"); of_list [OSym (nm "stx")];
    OPair (OSym (nm "syntax-case")) (OPair (OSym (nm "stx")) (OPair (of_list (map OSym lits)) (of_list (map clause_text rows))))].

Lemma totail_list : forall l, totail (of_list l) = of_list (map to_stx l).
Proof. induction l; cbn [of_list totail map]; auto. f_equal. auto. Qed.
Lemma stx_list_text : forall l, to_stx (of_list l) = OSyntax (of_list (map to_stx l)) OFalse.
Proof. destruct l; [reflexivity|]. cbn [of_list map]. rewrite to_stx_pair, totail_list. reflexivity. Qed.
Lemma spine_list : forall l, spine (of_list l) l ONull.
Proof. induction l; cbn; constructor; auto. Qed.
Lemma null_end : forall x r, ~ spine ONull [x] r.
Proof. intros x r H. inversion H. Qed.
Definition sr_bs (lits : list (list byte)) (rows : list row) : list obj :=
  [of_list (map (fun x => OSyntax (OSym x) OFalse) lits); of_list (map (fun r => OSyntax (OSym (fst (fst r))) OFalse) rows);
   of_list (map (fun r => totail (snd (fst r))) rows); of_list (map (fun r => to_stx (snd r)) rows)].
Lemma sr_pm : forall w lits rows, pm sr_pat (to_stx (form w lits rows)) (sr_bs lits rows).
Proof.
  intros w lits rows. unfold form. rewrite to_stx_pair. cbn [totail]. rewrite totail_list, map_map.
  rewrite stx_list_text, map_map.
  assert (LP : pm (PEll [] (PVar (nm "lit")) [] None) (OSyntax (of_list (map (fun x => to_stx (OSym x)) lits)) OFalse)
                  ([] ++ columns 1 (map (fun x => [OSyntax (OSym x) OFalse]) lits) ++ [] ++ [])).
  { destruct lits as [|l0 lits].
    - apply (PmEll [] (PVar (nm "lit")) [] None (OSyntax ONull OFalse) [] [] [] (OSyntax ONull OFalse) [] [] [] []); try (constructor; fail); try apply SpNil; try (intros x r H; inversion H; fail); repeat constructor.
    - apply (PmEll [] (PVar (nm "lit")) [] None _ [] (map (fun x => to_stx (OSym x)) (l0 :: lits)) [] ONull [] (map (fun x => [OSyntax (OSym x) OFalse]) (l0 :: lits)) [] []); try (constructor; fail); try apply null_end.
      + rewrite app_nil_r. cbn [app map of_list]. constructor. apply spine_list.
      + generalize (l0 :: lits). induction l; cbn [map]; constructor; auto. constructor.
      + repeat constructor. }
  assert (RP : pmr one_rule (map (fun r => to_stx (row_text r)) rows)
                   (map (fun r => [OSyntax (OSym (fst (fst r))) OFalse; totail (snd (fst r)); to_stx (snd r)]) rows)).
  { induction rows as [|[[k p] t] rows IH]; cbn [map]; constructor; auto. cbn [fst snd]. unfold row_text. cbn [fst snd].
    rewrite stx_list_text. cbn [map]. rewrite to_stx_pair.
    apply (PmList _ _ _ [OSyntax (OPair (to_stx (OSym k)) (totail p)) OFalse; to_stx t] ONull ([OSyntax (OSym k) OFalse; totail p] ++ [to_stx t] ++ []) []).
    - cbn [of_list]. repeat constructor.
    - apply PmlCons; [|apply PmlCons; constructor].
      apply (PmList _ _ _ [to_stx (OSym k)] (totail p) ([OSyntax (OSym k) OFalse] ++ []) [totail p]).
      + repeat constructor.
      + apply PmlCons; constructor.
      + repeat constructor.
    - repeat constructor. }
  pose proof (PmEll [PWild; PEll [] (PVar (nm "lit")) [] None] one_rule [] None
    (OSyntax (OPair (to_stx w) (OPair (OSyntax (of_list (map (fun x => to_stx (OSym x)) lits)) OFalse) (of_list (map (fun r => to_stx (row_text r)) rows)))) OFalse)
    [to_stx w; OSyntax (of_list (map (fun x => to_stx (OSym x)) lits)) OFalse] (map (fun r => to_stx (row_text r)) rows) [] ONull
    ([] ++ ([] ++ columns 1 (map (fun x => [OSyntax (OSym x) OFalse]) lits) ++ [] ++ []) ++ []) (map (fun r => [OSyntax (OSym (fst (fst r))) OFalse; totail (snd (fst r)); to_stx (snd r)]) rows) [] []) as G.
  assert (E : sr_bs lits rows = ([] ++ ([] ++ columns 1 (map (fun x => [OSyntax (OSym x) OFalse]) lits) ++ [] ++ []) ++ []) ++
     columns (length (vars 0 one_rule)) (map (fun r => [OSyntax (OSym (fst (fst r))) OFalse; totail (snd (fst r)); to_stx (snd r)]) rows) ++ [] ++ []).
  { unfold sr_bs, columns. cbn [length vars one_rule flat_map app map seq]. rewrite !map_map. reflexivity. }
  rewrite E. apply G.
  - rewrite app_nil_r. cbn [app]. repeat constructor. apply spine_list.
  - apply null_end.
  - apply PmlCons; [constructor|]. apply PmlCons; [exact LP|constructor].
  - exact RP.
  - constructor.
  - repeat constructor.
Qed.
Lemma sr_wf : wf [] sr_pat.
Proof. unfold sr_pat, sr_args, one_rule, headed. repeat (constructor; try discriminate); cbn; try tauto; try discriminate; intuition (try congruence); inversion H; subst; constructor; cbn; auto. Qed.
Lemma sr_tame : tame_args sr_args.
Proof. cbn. unfold one_rule. repeat (constructor; try discriminate). Qed.

Lemma oconcat_ones : forall {A} (g : A -> obj) l, oconcat (map (fun i => Some [g i]) l) = Some (map g l).
Proof. induction l; cbn; auto. rewrite IHl. reflexivity. Qed.
Lemma oconcat_ext : forall {A} (f g : A -> option (list obj)) l, (forall i, In i l -> f i = g i) -> oconcat (map f l) = oconcat (map g l).
Proof. intros A f g l H. f_equal. apply map_ext_in. auto. Qed.
Lemma map_seq_nth : forall {A B} (g : A -> B) (l : list A) d, map (fun i => g (nth i l d)) (seq 0 (length l)) = map g l.
Proof.
  intros A B g l d. induction l as [|x l IH]; cbn [length seq map]; auto. f_equal. rewrite <- seq_shift, map_map. exact IH.
Qed.
Lemma nth_error_nth' : forall {A} (l : list A) i d, i < length l -> nth_error l i = Some (nth i l d).
Proof. induction l; intros [|i] d H; cbn in *; try lia; auto. apply IHl. lia. Qed.
Definition r0 : row := (nm "", ONull, ONull).

Lemma sr_env : forall lits rows x,
  env_of sr_pat (sr_bs lits rows) x =
  if list_eq_dec ascii_dec (nm "lit") x then Some (1, of_list (map (fun x => OSyntax (OSym x) OFalse) lits))
  else if list_eq_dec ascii_dec (nm "k") x then Some (1, of_list (map (fun r => OSyntax (OSym (fst (fst r))) OFalse) rows))
  else if list_eq_dec ascii_dec (nm "p") x then Some (1, of_list (map (fun r => totail (snd (fst r))) rows))
  else if list_eq_dec ascii_dec (nm "t") x then Some (1, of_list (map (fun r => to_stx (snd r)) rows)) else None.
Proof.
  intros. unfold env_of, sr_bs. cbn [sr_pat sr_args headed vars flat_map app one_rule combine find fst snd].
  repeat (destruct (list_eq_dec ascii_dec _ x); [reflexivity|]). reflexivity.
Qed.
Ltac names := repeat match goal with |- context [list_eq_dec ascii_dec (nm ?a) (nm ?b)] =>
    let r := eval vm_compute in (list_eq_dec ascii_dec (nm a) (nm b)) in
    match r with left _ => destruct (list_eq_dec ascii_dec (nm a) (nm b)) as [_|C]; [|exfalso; apply C; reflexivity]
               | right _ => destruct (list_eq_dec ascii_dec (nm a) (nm b)) as [C|_]; [discriminate C|] end end.
Lemma insts_id : forall rho x, rho x = None -> insts rho (TId x) = Some [OSym x].
Proof. intros rho x E. cbn [insts]. rewrite E. auto. Qed.
Lemma strip_totail : forall o, strip (totail o) = strip o.
Proof. apply strip_to_stx. Qed.
Lemma sr_inst : forall lits rows, inst (env_of sr_pat (sr_bs lits rows)) sr_tmpl = Some (lambda_text lits rows).
Proof.
  intros lits rows. set (rho := env_of sr_pat (sr_bs lits rows)).
  assert (NB : forall s, (if list_eq_dec ascii_dec (nm "lit") (nm s) then false else if list_eq_dec ascii_dec (nm "k") (nm s) then false
      else if list_eq_dec ascii_dec (nm "p") (nm s) then false else if list_eq_dec ascii_dec (nm "t") (nm s) then false else true) = true -> rho (nm s) = None).
  { intros s H. unfold rho. rewrite sr_env. repeat (destruct (list_eq_dec ascii_dec _ (nm s)); [discriminate|]). reflexivity. }
  assert (El : rho (nm "lit") = Some (1, of_list (map (fun x => OSyntax (OSym x) OFalse) lits))) by (unfold rho; rewrite sr_env; names; reflexivity).
  assert (Ep : rho (nm "p") = Some (1, of_list (map (fun r => totail (snd (fst r))) rows))) by (unfold rho; rewrite sr_env; names; reflexivity).
  assert (Et : rho (nm "t") = Some (1, of_list (map (fun r => to_stx (snd r)) rows))) by (unfold rho; rewrite sr_env; names; reflexivity).
  assert (L : insts rho (TRep (TId (nm "lit"))) = Some (map OSym lits)).
  { cbn [insts ids]. unfold repetitions, runs. cbn [flat_map]. rewrite El. cbn [app]. rewrite to_list_of_list. cbn [forallb].
    rewrite map_length. erewrite oconcat_ext.
    2: { intros i Hi. apply in_seq in Hi. unfold at_. rewrite El, to_list_of_list.
         rewrite (nth_error_nth' _ i (OSyntax (OSym (nm "")) OFalse)) by (rewrite map_length; lia).
         rewrite (map_nth (fun x => OSyntax (OSym x) OFalse)). cbn [strip]. reflexivity. }
    rewrite (oconcat_ones (fun i => OSym (nth i lits (nm "")))). rewrite (map_seq_nth OSym). reflexivity. }
  assert (C : insts rho (TRep one_clause) = Some (map clause_text rows)).
  { cbn [insts]. unfold repetitions, runs. cbn [one_clause ids flat_map app].
    rewrite Ep, Et, (NB "_"%string eq_refl), (NB "syntax"%string eq_refl). cbn [app]. rewrite to_list_of_list. cbn [forallb].
    rewrite to_list_of_list, !map_length, Nat.eqb_refl. cbn [andb].
    erewrite oconcat_ext.
    2: { intros i Hi. apply in_seq in Hi.
         assert (A1 : at_ i rho (nm "p") = Some (0, totail (snd (fst (nth i rows r0))))).
         { unfold at_. rewrite Ep, to_list_of_list. rewrite (nth_error_nth' _ i (totail (snd (fst r0)))) by (rewrite map_length; lia).
           rewrite (map_nth (fun r => totail (snd (fst r)))). reflexivity. }
         assert (A2 : at_ i rho (nm "t") = Some (0, to_stx (snd (nth i rows r0)))).
         { unfold at_. rewrite Et, to_list_of_list. rewrite (nth_error_nth' _ i (to_stx (snd r0))) by (rewrite map_length; lia).
           rewrite (map_nth (fun r => to_stx (snd r))). reflexivity. }
         assert (A3 : at_ i rho (nm "_") = None) by (unfold at_; rewrite (NB "_"%string eq_refl); reflexivity).
         assert (A4 : at_ i rho (nm "syntax") = None) by (unfold at_; rewrite (NB "syntax"%string eq_refl); reflexivity).
         unfold one_clause. cbn [insts map]. rewrite A1, A2, A3, A4. cbn [oconcat app chain fold_right].
         rewrite strip_totail, (proj1 (strip_to_stx _)). reflexivity. }
    change (oconcat (map (fun i => Some [clause_text (nth i rows r0)]) (seq 0 (length rows))) = Some (map clause_text rows)).
    rewrite (oconcat_ones (fun i => clause_text (nth i rows r0))). rewrite (map_seq_nth clause_text). reflexivity. }
  unfold inst. unfold sr_tmpl.
  assert (B : insts rho (TList [TId (nm "syntax-case"); TId (nm "stx"); TList [TRep (TId (nm "lit"))] None; TRep one_clause] None) =
    Some [OPair (OSym (nm "syntax-case")) (OPair (OSym (nm "stx")) (OPair (of_list (map OSym lits)) (of_list (map clause_text rows))))]).
  { assert (L2 : insts rho (TList [TRep (TId (nm "lit"))] None) = Some [of_list (map OSym lits)]).
    { change (insts rho (TList [TRep (TId (nm "lit"))] None)) with
        (match oconcat [insts rho (TRep (TId (nm "lit")))] with Some ds => Some [chain ds ONull] | None => None end).
      rewrite L. cbn [oconcat]. rewrite app_nil_r, of_list_chain. reflexivity. }
    change (match oconcat [insts rho (TId (nm "syntax-case")); insts rho (TId (nm "stx")); insts rho (TList [TRep (TId (nm "lit"))] None); insts rho (TRep one_clause)]
      with Some ds => Some [chain ds ONull] | None => None end =
     Some [OPair (OSym (nm "syntax-case")) (OPair (OSym (nm "stx")) (OPair (of_list (map OSym lits)) (of_list (map clause_text rows))))]).
    rewrite L2, C, !insts_id by (apply NB; reflexivity). cbn [oconcat app chain fold_right]. rewrite app_nil_r, (of_list_chain (map clause_text rows)). reflexivity. }
  change (match (match oconcat [insts rho (TId (nm "lambda")); insts rho (TList [TId (nm "stx")] None);
     insts rho (TList [TId (nm "syntax-case"); TId (nm "stx"); TList [TRep (TId (nm "lit"))] None; TRep one_clause] None)]
      with Some ds => Some [chain ds ONull] | None => None end) with Some [d] => Some d | _ => None end = Some (lambda_text lits rows)).
  rewrite B, insts_id by (apply NB; reflexivity). cbn [insts map]. rewrite (NB "stx"%string eq_refl). reflexivity.
Qed.

Lemma enough_sr : forall lits rows, enough (env_of sr_pat (sr_bs lits rows)) 0 sr_tmpl /\ driven (env_of sr_pat (sr_bs lits rows)) 0 sr_tmpl.
Proof.
  intros lits rows. set (rho := env_of sr_pat (sr_bs lits rows)).
  split; cbn [sr_tmpl one_clause enough driven fold_right]; unfold rho.
  - assert (NB : forall x y, env_of sr_pat (sr_bs lits rows) x = y -> match y with Some (p, _) => p <= 1 | None => True end).
    { intros x y <-. rewrite sr_env. repeat (destruct (list_eq_dec ascii_dec _ x); [lia|]). exact Logic.I. }
    assert (N0 : forall s, existsb (fun a => if list_eq_dec ascii_dec (nm a) (nm s) then true else false) ["lit"; "k"; "p"; "t"]%string = false ->
      match env_of sr_pat (sr_bs lits rows) (nm s) with Some (p, _) => p <= 0 | None => True end).
    { intros s H. rewrite sr_env. cbn [existsb] in H. repeat (destruct (list_eq_dec ascii_dec _ (nm s)); [discriminate|]). exact Logic.I. }
    repeat split; try (apply N0; reflexivity); eapply NB; reflexivity.
  - assert (El : env_of sr_pat (sr_bs lits rows) (nm "lit") = Some (1, of_list (map (fun x => OSyntax (OSym x) OFalse) lits))) by (rewrite sr_env; names; reflexivity).
    assert (Ep : env_of sr_pat (sr_bs lits rows) (nm "p") = Some (1, of_list (map (fun r => totail (snd (fst r))) rows))) by (rewrite sr_env; names; reflexivity).
    repeat split; auto.
    + exists (nm "lit"). do 2 eexists. split; [left; reflexivity|]. split; [exact El|lia].
    + exists (nm "p"). do 2 eexists. split; [right; left; reflexivity|]. split; [exact Ep|lia].
Qed.
Lemma sr_tok : tok sr_tmpl.
Proof.
  assert (I0 : forall s, nm s <> s2b "..." -> tel (TId (nm s))) by (intros; apply TelOne; constructor; auto).
  unfold sr_tmpl. constructor; [discriminate| |discriminate]. repeat (apply Forall_cons || apply Forall_nil); try (apply I0; discriminate).
  - apply TelOne. constructor; [discriminate| |discriminate]. repeat constructor. discriminate.
  - apply TelOne. constructor; [discriminate| |discriminate]. repeat (apply Forall_cons || apply Forall_nil); try (apply I0; discriminate).
    + apply TelOne. constructor; [discriminate| |discriminate]. constructor; [|constructor]. apply TelRep. constructor. discriminate.
    + apply TelRep. unfold one_clause. constructor; [discriminate| |discriminate]. repeat (apply Forall_cons || apply Forall_nil).
      * apply TelOne. constructor; [discriminate| |].
        { repeat (apply Forall_cons || apply Forall_nil). apply I0. discriminate. }
        intros t E. injection E as <-. split; [constructor; discriminate|split; reflexivity].
      * apply TelOne. constructor; [discriminate| |discriminate]. repeat (apply Forall_cons || apply Forall_nil); apply I0; discriminate.
Qed.
Lemma plain_list : forall l, Forall (fun x => plain x = true) l -> plain (of_list l) = true.
Proof. induction 1; cbn; auto. rewrite H, IHForall. auto. Qed.
Lemma fender_ok : forall lits rows, sr_fender (sr_bs lits rows) = Some true.
Proof.
  intros. unfold sr_fender, sr_bs. rewrite !to_list_of_list. f_equal. rewrite forallb_app. apply andb_true_iff. split.
  - induction lits; cbn; auto.
  - induction rows; cbn; auto.
Qed.

(** The form (syntax-rules (lit ...) ((k . p) t) ...) stands for the transformer
    (lambda (stx) (syntax-case stx (lit ...) ((_ . p) (syntax t)) ...)), whatever the
    literals and the rules are. *)
Theorem C67_text : forall w, plain w = true -> exists N, forall f, N <= f -> forall lits rows,
  Forall (fun r => plain (snd (fst r)) = true /\ plain (snd r) = true) rows ->
  exists v, syntax_rules f (form w lits rows) = MOk v /\ strip v = lambda_text lits rows.
Proof.
  intros w PW. destruct (rule_match [] sr_args sr_wf sr_tame) as [N1 M]. destruct (bind_vars_env [] sr_pat sr_wf) as [N2 B].
  exists (N1 + N2 + tsize sr_tmpl). intros f Hf lits rows PR.
  assert (PF : plain (form w lits rows) = true).
  { unfold form. cbn [plain]. rewrite PW. cbn [andb]. apply andb_true_iff. split; apply plain_list; apply Forall_map.
    - apply Forall_forall. reflexivity.
    - apply Forall_forall. intros r HI. rewrite Forall_forall in PR. destruct (PR r HI) as [P1 P2]. unfold row_text. cbn. rewrite P1, P2. reflexivity. }
  assert (PP : pairp (to_stx (form w lits rows))) by (unfold form; rewrite to_stx_pair; eexists; eexists; reflexivity).
  pose proof (sr_pm w lits rows) as PM.
  destruct (M _ (to_stx_flat _ PF) PP f ltac:(lia)) as [[bs [E P]]|[_ C]]; [|exfalso; apply C; eauto].
  fold sr_pat in E, P. rewrite (C58_unique _ _ _ _ P PM) in E. clear bs P.
  unfold syntax_rules, case_template, syntax_case. cbn [map fst select]. rewrite sr_pattern_is, E, fender_ok. cbn [nth_error].
  rewrite B by lia. rewrite sr_template_is.
  pose proof (proj1 (template_spec (env_of sr_pat (sr_bs lits rows)) sr_tmpl f sr_tok ltac:(lia))) as H.
  pose proof (sr_inst lits rows) as I0. destruct (enough_sr lits rows) as [EN DR].
  destruct (template (env_of sr_pat (sr_bs lits rows)) f (tobj sr_tmpl)) as [v| | |]; try tauto; rewrite I0 in H; try discriminate.
  exists v. split; [reflexivity|congruence].
Qed.

(** Only forms of that shape are accepted: the literals and the keywords of the
    rules are symbols, and a rule has two parts. *)
Definition sr_shape (d : obj) : Prop := exists w ls (rows : list (obj * obj * obj)),
  d = OPair w (OPair (of_list ls) (of_list (map (fun r => of_list [OPair (fst (fst r)) (snd (fst r)); snd r]) rows))) /\
  Forall (fun x => symbolp x = true) ls /\ Forall (fun r => symbolp (fst (fst r)) = true) rows.
Lemma pmr_var : forall x es rows, pmr (PVar x) es rows -> rows = map (fun e => [e]) es.
Proof.
  intros x es rows H. revert es H. induction rows as [|r rows IH]; intros es H; inversion H as [|? e es' b rw P PR]; subst; auto.
  inversion P; subst. cbn. f_equal. apply IH; auto.
Qed.
Lemma ident_symbol : forall e, identifierp e = true -> symbolp (strip e) = true.
Proof. intros e H. destruct e; cbn in H; try discriminate. destruct e1; cbn in *; try discriminate; auto. Qed.
Lemma strip_of_list : forall l, strip (of_list l) = of_list (map strip l).
Proof. induction l; cbn; auto. rewrite IHl. reflexivity. Qed.
Lemma pmr_rule : forall es rows, pmr one_rule es rows -> exists rs : list (obj * obj * obj),
  map strip es = map (fun r => of_list [OPair (strip (fst (fst r))) (strip (snd (fst r))); strip (snd r)]) rs /\
  rows = map (fun r => [fst (fst r); snd (fst r); snd r]) rs.
Proof.
  intros es rows H. remember one_rule as p0 eqn:EP. revert EP H. revert es. induction rows as [|r rows IH]; intros es EP H; inversion H as [|? e es' b rw P PR]; subst.
  - exists []. auto.
  - destruct (IH _ eq_refl PR) as [rs [E1 E2]]. unfold one_rule in P.
    inversion P as [| | |? ? ? ees rest bb bt SP PL PT| | |]; subst. inversion PT as [? EM|]; subst.
    inversion PL as [|? ? h ht bh bht P1 PL1]; subst. inversion PL1 as [|? ? t tt bq bqt P2 PL2]; subst. inversion PL2; subst. inversion P2; subst.
    inversion P1 as [| | |? ? ? hes hrest hb hbt HSP HPL HPT| | |]; subst. inversion HPL as [|? ? k kt bk bkt P3 PL3]; subst. inversion PL3; subst. inversion P3; subst.
    inversion HPT as [|? ? ? P4]; subst. inversion P4; subst.
    exists ((k, hrest, t) :: rs). cbn [map fst snd app]. split; [|reflexivity]. f_equal; auto.
    apply spine_strip in SP. rewrite SP. apply spine_strip in HSP. cbn [map chain fold_right of_list]. rewrite HSP. cbn [map chain fold_right].
    inversion EM; subst; reflexivity.
Qed.
Theorem C67_accepted : exists N, forall f, N <= f -> forall k a v, plain (OPair k a) = true ->
  syntax_rules f (OPair k a) = MOk v -> sr_shape (strip (OPair k a)).
Proof.
  destruct (rule_match [] sr_args sr_wf sr_tame) as [N1 M]. exists N1. intros f Hf k a v PD H.
  assert (PP : pairp (to_stx (OPair k a))) by (rewrite to_stx_pair; eexists; eexists; reflexivity).
  unfold syntax_rules, case_template, syntax_case in H. cbn [map fst select] in H. rewrite sr_pattern_is in H.
  destruct (M _ (to_stx_flat _ PD) PP f Hf) as [[bs [E P]]|[E _]]; fold sr_pat in E; rewrite E in H; [|discriminate].
  destruct (sr_fender bs) as [[|]|] eqn:FE; try discriminate. clear H E M.
  unfold sr_args, headed in P.
  inversion P as [| | | |? ? ? ? ? es1 mids es2 rest b1 rows b2 bt SP NP PL PR PQ PT| |]; subst. clear P.
  inversion PQ; subst. inversion PT as [? EM|]; subst.
  inversion PL as [|? ? w wt bw bwt P1 PL1]; subst. inversion P1; subst. inversion PL1 as [|? ? L lt bl blt P2 PL2]; subst. inversion PL2; subst. clear PL PL1 PL2 P1.
  inversion P2 as [| | | |? ? ? ? ? les1 lmids les2 lrest lb1 lrows lb2 lbt LSP LNP LPL LPR LPQ LPT| |]; subst. clear P2.
  inversion LPL; subst. inversion LPQ; subst. inversion LPT as [? LEM|]; subst.
  apply pmr_var in LPR. subst lrows. apply pmr_rule in PR as [rs [RS ->]].
  cbn [app length vars one_rule flat_map columns map seq] in FE. rewrite !map_map in FE. cbn [nth] in FE. unfold sr_fender in FE.
  rewrite !to_list_of_list in FE. injection FE as FE. rewrite map_id, forallb_app in FE. apply andb_true_iff in FE as [F1 F2].
  rewrite forallb_forall in F1, F2.
  exists (strip w), (map strip lmids), (map (fun r => (strip (fst (fst r)), strip (snd (fst r)), strip (snd r))) rs). split; [|split].
  - rewrite <- (proj1 (strip_to_stx (OPair k a))). apply spine_strip in SP. rewrite SP. rewrite app_nil_r. cbn [app map chain fold_right].
    apply spine_strip in LSP. cbn [app] in LSP. rewrite app_nil_r in LSP. rewrite LSP. f_equal. f_equal.
    + rewrite of_list_chain. inversion LEM; subst; reflexivity.
    + rewrite RS, map_map. cbn [fst snd]. rewrite of_list_chain. inversion EM; subst; reflexivity.
  - apply Forall_map, Forall_forall. intros x HI. apply ident_symbol, F1; auto.
  - apply Forall_map, Forall_forall. intros r HI. cbn [fst]. apply ident_symbol, F2. apply in_map_iff. eauto.
Qed.

(** * Definitions *)
Lemma plain_strip : forall o, plain (strip o) = true.
Proof.
  intros o. induction o using obj_ind_strong; cbn; auto.
  - rewrite IHo1, IHo2. auto.
  - induction H; cbn; auto. rewrite H, IHForall. auto.
Qed.
Definition args_text (a : args) : obj :=
  strip (match a with
         | AList ps tl => chain (map pobj ps) (tailobj tl)
         | AEll ps p qs tl => chain (map pobj ps ++ pobj p :: DOTS :: map pobj qs) (tailobj tl)
         end).
Lemma headed_text : forall h a, pat_text (headed h a) = OPair (strip (pobj h)) (args_text a).
Proof. intros h [ps tl|ps p qs tl]; reflexivity. Qed.
Definition rule_row (r : rule) : row := (key r, args_text (rargs r), strip (tobj (body r))).
Lemma rules_form : forall lits rs, rules_text lits rs = form (OSym (s2b "syntax-rules")) lits (map rule_row rs).
Proof.
  intros. unfold rules_text, form. f_equal. f_equal. f_equal. rewrite map_map. apply map_ext. intros r. unfold rule_text, row_text.
  rewrite headed_text. reflexivity.
Qed.
Lemma rule_reads : forall lits r, rule_ok lits r ->
  to_stx (OPair (OSym (nm "_")) (args_text (rargs r))) = pobj (rule_pat r) /\ to_stx (strip (tobj (body r))) = tobj (body r).
Proof.
  intros lits r [W [_ [_ [K [N _]]]]]. split.
  - change (OSym (nm "_")) with (strip (pobj PWild)). rewrite <- headed_text. apply (pat_reads _ _ W).
  - apply (tmpl_reads (body r) (or_introl K) N).
Qed.
Definition macro_of (lits : list (list byte)) (rs : list rule) : list obj * list (obj * obj) :=
  (map OSym lits, map (fun r => (pobj (rule_pat r), tobj (body r))) rs).
Lemma clauses_of : forall lits rs, Forall (rule_ok lits) rs ->
  sc_clauses (map clause_text (map rule_row rs)) = Some (map (fun r => (pobj (rule_pat r), tobj (body r))) rs).
Proof.
  intros lits rs H. induction H as [|r rs Hr Hrs IH]; cbn [map sc_clauses]; auto. rewrite IH.
  unfold clause_text at 1, rule_row at 1 2. cbn [of_list to_list fst snd].
  destruct (list_eq_dec ascii_dec (nm "syntax") (s2b "syntax")) as [_|C]; [|exfalso; apply C; reflexivity].
  assert (SI : forall o, strip (strip o) = strip o) by (intros; apply strip_idem).
  unfold args_text. rewrite !SI. fold (args_text (rargs r)). destruct (rule_reads lits r Hr) as [-> ->]. reflexivity.
Qed.
Lemma syms_symp : forall lits, forallb symp (map OSym lits) = true.
Proof. induction lits; cbn; auto. Qed.
(** A definition by rules makes the transformer whose clauses are the rules. *)
Theorem C67_definition : forall lits rs, rs <> [] -> Forall (rule_ok lits) rs -> exists N, forall f, N <= f ->
  define_rules f (rules_text lits rs) = Some (macro_of lits rs).
Proof.
  intros lits rs NE OK. destruct (C67_text (OSym (s2b "syntax-rules")) eq_refl) as [N T]. exists N. intros f Hf.
  destruct (T f Hf lits (map rule_row rs)) as [v [E SV]].
  { apply Forall_map. apply Forall_forall. intros r _. cbn. unfold args_text. rewrite !plain_strip. auto. }
  unfold define_rules. rewrite rules_form, E, SV. unfold sc_parse, lambda_text. cbn [of_list to_list].
  destruct rs as [|r rs]; [congruence|]. change (of_list (map clause_text (map rule_row (r :: rs)))) with (OPair (clause_text (rule_row r)) (of_list (map clause_text (map rule_row rs)))).
  cbn [to_list]. rewrite to_list_of_list, to_list_of_list.
  change (clause_text (rule_row r) :: map clause_text (map rule_row rs)) with (map clause_text (map rule_row (r :: rs))).
  rewrite (clauses_of lits) by auto.
  rewrite syms_symp. reflexivity.
Qed.

(** * Uses *)
Definition matches (r : rule) (d : obj) (bs : list obj) : Prop := pm (rule_pat r) (to_stx d) bs.
(** rule number i is r, it matches with the bindings bs and no rule before it matches *)
Definition first_rule (rs : list rule) (d : obj) (i : nat) (r : rule) (bs : list obj) : Prop :=
  nth_error rs i = Some r /\ matches r d bs /\
  forall j r', j < i -> nth_error rs j = Some r' -> ~ exists bs', matches r' d bs'.
Lemma select_rules : forall lits rs, Forall (rule_ok lits) rs -> exists N, forall f, N <= f ->
  forall d, plain d = true -> pairp (to_stx d) -> forall k,
  (exists i r bs, select (map OSym lits) f (to_stx d) (map fst (map (fun c => (fst c, fun _ : list obj => Some true, snd c)) (snd (macro_of lits rs)))) k = MOk (k + i, bs) /\
     first_rule rs d i r bs) \/
  (select (map OSym lits) f (to_stx d) (map fst (map (fun c => (fst c, fun _ : list obj => Some true, snd c)) (snd (macro_of lits rs)))) k = MNo /\
     forall r bs, In r rs -> ~ matches r d bs).
Proof.
  intros lits rs H. induction H as [|r rs Hr Hrs IH].
  - exists 0. intros. right. cbn. split; auto.
  - destruct IH as [N1 IH]. destruct Hr as [W [T _]]. destruct (rule_match _ _ W T) as [N2 M]. exists (N1 + N2). intros f Hf d PD PP k.
    cbn [macro_of snd map fst select]. destruct (M _ (to_stx_flat _ PD) PP f ltac:(lia)) as [[bs [E P]]|[E NP]]; fold (rule_pat r) in *; rewrite E.
    + left. exists 0, r, bs. rewrite Nat.add_0_r. split; auto. split; [reflexivity|]. split; auto. intros j r' L. lia.
    + destruct (IH f ltac:(lia) d PD PP (S k)) as [[i [r' [bs [E' [Q1 [Q2 Q3]]]]]]|[E' Q]]; cbn [macro_of snd] in E'; rewrite E'.
      * left. exists (S i), r', bs. replace (k + S i) with (S k + i) by lia. split; auto. split; [exact Q1|]. split; auto.
        intros [|j] r'' L EN; [cbn in EN; injection EN as <-; exact NP|]. apply (Q3 j); [lia|exact EN].
      * right. split; auto. intros r' bs [<-|HI]; [intros C; apply NP; exists bs; exact C|apply Q; auto].
Qed.
Lemma tmpl_bound : forall rs, exists N, forall r, In r rs -> tsize (body r) <= N.
Proof. induction rs as [|r rs [N IH]]; [exists 0; intros r []|]. exists (tsize (body r) + N). intros r' [<-|HI]; [lia|]. specialize (IH r' HI). lia. Qed.
Lemma env_bound : forall lits rs, Forall (rule_ok lits) rs -> exists N, forall r f bs, In r rs -> N <= f ->
  bind_vars (map OSym lits) f (pobj (rule_pat r)) bs = env_of (rule_pat r) bs.
Proof.
  intros lits rs H. induction H as [|r rs Hr Hrs [N IH]]; [exists 0; intros r f bs []|].
  destruct (bind_vars_env _ _ (proj1 Hr)) as [M B]. exists (M + N). intros r' f bs [<-|HI] L; [apply B; lia|apply IH; auto; lia].
Qed.

(** A use of the macro is rewritten by the first rule whose pattern it matches, to the
    instance of the template of that rule; it is an error when no rule matches, and
    when the sequences that the template goes through together differ in length. *)
Theorem C67_use_partial : forall lits rs, Forall (rule_ok lits) rs -> exists N, forall f, N <= f ->
  forall k a, plain (OPair k a) = true ->
  (exists i r bs v, first_rule rs (OPair k a) i r bs /\ expand_use f (macro_of lits rs) (OPair k a) = MOk v /\
                    inst (env_of (rule_pat r) bs) (body r) = Some (strip v)) \/
  (expand_use f (macro_of lits rs) (OPair k a) = MNo /\ forall r bs, In r rs -> ~ matches r (OPair k a) bs) \/
  (exists i r bs, first_rule rs (OPair k a) i r bs /\ expand_use f (macro_of lits rs) (OPair k a) = MErr /\
                  inst (env_of (rule_pat r) bs) (body r) = None).
Proof.
  intros lits rs OK. destruct (select_rules lits rs OK) as [N1 S0]. destruct (tmpl_bound rs) as [N2 TB]. destruct (env_bound lits rs OK) as [N3 EB].
  exists (N1 + N2 + N3). intros f Hf k a PD.
  assert (PP : pairp (to_stx (OPair k a))) by (rewrite to_stx_pair; eexists; eexists; reflexivity).
  unfold expand_use, case_template, syntax_case. cbn [macro_of fst].
  destruct (S0 f ltac:(lia) _ PD PP 0) as [[i [r [bs [E FR]]]]|[E Q]]; rewrite E; cbn [plus].
  - pose proof FR as [NE [MM _]]. assert (HI : In r rs) by (eapply nth_error_In; eauto).
    cbn [macro_of snd]. rewrite map_map, nth_error_map, NE. cbn [option_map fst snd]. rewrite EB by (auto; lia).
    rewrite Forall_forall in OK. destruct (OK r HI) as [W [T [ND [K [NN [EN DR]]]]]].
    assert (LB : length bs = length (vars 0 (rule_pat r))) by (eapply pm_length; eauto).
    apply (enough_ext _ _ (depths_env _ _ LB)) in EN. apply (driven_ext _ _ (depths_env _ _ LB)) in DR.
    pose proof (proj1 (template_spec (env_of (rule_pat r) bs) (body r) f K ltac:(specialize (TB r HI); lia))) as H.
    destruct (template (env_of (rule_pat r) bs) f (tobj (body r))) as [v| | |]; try tauto; cbn [of_tres].
    + left. exists i, r, bs, v. auto.
    + right; right. exists i, r, bs. auto.
  - right; left. auto.
Qed.

(** The keyword of a use plays no part in the choice of the rule and in the bindings. *)
Lemma head_free : forall a x y t l bs, pm (headed PWild a) (OSyntax (OPair x t) l) bs -> pm (headed PWild a) (OSyntax (OPair y t) l) bs.
Proof.
  intros [ps tl|ps p qs tl] x y t l bs H; cbn [headed] in *.
  - inversion H as [| | |? ? ? es rest b bt SP PL PT| | |]; subst. inversion PL as [|? ? e es' b0 b1 P0 P1]; subst. inversion P0; subst.
    inversion SP as [|?|? ? ? ? ? SP']; subst. eapply PmList with (es := y :: es'); [constructor; eauto| |eauto]. apply PmlCons; [constructor|auto].
  - inversion H as [| | | |? ? ? ? ? es1 mids es2 rest b1 rows b2 bt SP NP PL PR PQ PT| |]; subst. inversion PL as [|? ? e es' b0 b1' P0 P1]; subst. inversion P0; subst.
    cbn [app] in SP. inversion SP as [|?|? ? ? ? ? SP']; subst.
    eapply (PmEll (PWild :: ps) p qs tl _ (y :: es') mids es2 rest ([] ++ b1')); eauto; [constructor; exact SP'|]. apply PmlCons; [constructor|auto].
Qed.
Theorem C67_keyword : forall r k k' a bs, matches r (OPair k a) bs <-> matches r (OPair k' a) bs.
Proof. intros. unfold matches. rewrite !to_stx_pair. split; apply head_free. Qed.

(** No rules at all: the form is refused as a definition. *)
Theorem C67_no_rules_refuted : forall lits, exists N, forall f, N <= f -> define_rules f (rules_text lits []) = None.
Proof.
  intros lits. destruct (C67_text (OSym (s2b "syntax-rules")) eq_refl) as [N T]. exists N. intros f Hf.
  destruct (T f Hf lits []) as [v [E SV]]; [constructor|]. assert (E2 : syntax_rules f (rules_text lits []) = MOk v) by (rewrite rules_form; exact E).
  unfold define_rules. rewrite E2, SV. reflexivity.
Qed.

(** with-syntax binds the variables of each pattern to the parts of the value of its
    expression, and is an error when one of the values does not match. *)
Definition with_match (ps : list pat) (vs : list obj) (bs : list obj) : Prop := pml ps (map to_stx vs) bs.
Theorem C67_with_syntax : forall ps, Forall (wf []) ps -> Forall (fun p => tame p /\ p <> PWild) ps -> exists N, forall f, N <= f ->
  forall vs, Forall (fun v => plain v = true) vs ->
  (exists bs, with_syntax f (map pobj ps) vs = MOk bs /\ with_match ps vs bs) \/
  (with_syntax f (map pobj ps) vs = MNo /\ ~ exists bs, with_match ps vs bs).
Proof.
  intros ps W T.
  assert (WP : wf [] (PList ps None)) by (constructor; [auto|discriminate]).
  assert (TP : tame (PList ps None)) by (constructor; [auto|discriminate]).
  destruct (C58_match [] (PList ps None) WP TP) as [N M]. exists N. intros f Hf vs PV.
  assert (E1 : to_stx (of_list (map pobj ps)) = pobj (PList ps None)).
  { rewrite stx_list_text. cbn [pobj]. rewrite of_list_chain. f_equal. f_equal. clear. induction ps; cbn; auto. rewrite IHps. f_equal. apply to_stx_syntax, pobj_syntax. }
  assert (EQ : forall bs, pm (PList ps None) (to_stx (of_list vs)) bs <-> with_match ps vs bs).
  { intros bs. rewrite stx_list_text. split.
    - intros H. inversion H as [| | |? ? ? es rest b bt SP PL PT| | |]; subst. inversion PT as [? EM|]; subst. rewrite app_nil_r. unfold with_match.
      assert (SP2 : spine (of_list (map to_stx vs)) es (match es with [] => of_list (map to_stx vs) | _ => rest end)).
      { destruct es as [|e0 es]; [constructor|]. inversion SP as [|?|? ? ? ? ? SP']; subst.
        destruct vs as [|v vs]; [discriminate|]. cbn [map of_list] in *. match goal with Q : OPair _ _ = OPair _ _ |- _ => injection Q as -> -> end. constructor. auto. }
      destruct es as [|e0 es].
      + inversion SP; subst. destruct vs; [|cbn in EM; inversion EM]. exact PL.
      + apply spine_of_list in SP2 as [<- _]; auto. apply empty_nopair; auto.
    - intros PL. rewrite <- (app_nil_r bs). destruct vs as [|v vs].
      + apply (PmList _ _ _ [] (OSyntax ONull OFalse)); [constructor|exact PL|repeat constructor].
      + apply (PmList _ _ _ (map to_stx (v :: vs)) ONull); [|exact PL|repeat constructor]. cbn [map of_list]. constructor. apply spine_list. }
  unfold with_syntax, syntax_case. cbn [select]. rewrite E1.
  destruct (M _ (to_stx_flat _ (plain_list _ PV)) f Hf) as [[bs [E P]]|[E NP]]; rewrite E.
  - left. exists bs. split; auto. apply EQ. auto.
  - right. split; auto. intros [bs C]. apply NP. exists bs. apply EQ. auto.
Qed.

(** ** What does not hold, and concrete cases *)
Definition I_ (s : string) : tmpl := TId (nm s).
Definition L_ (es : list tmpl) : tmpl := TList es None.
Definition S_ (s : string) : obj := OSym (nm s).
(** (swap! a b) -> (let ((tmp a)) (set! a b) (set! b tmp)) *)
Definition swap_rule : rule :=
  Rule (nm "swap!") (AList [PVar (nm "a"); PVar (nm "b")] None)
       (L_ [I_ "let"; L_ [L_ [I_ "tmp"; I_ "a"]]; L_ [I_ "set!"; I_ "a"; I_ "b"]; L_ [I_ "set!"; I_ "b"; I_ "tmp"]]).
Lemma tok_list : forall es, es <> [] -> Forall tel es -> tok (TList es None).
Proof. intros. constructor; auto. discriminate. Qed.
Ltac tokens := unfold L_, I_; repeat first
  [ apply Forall_nil | apply Forall_cons | apply TelRep | apply tok_list; [discriminate|] | apply TokId; discriminate
  | apply TokConst; reflexivity | apply TelOne ].
Ltac normals := unfold L_, I_; repeat (constructor; try discriminate).
Lemma swap_ok : rule_ok [] swap_rule.
Proof.
  unfold rule_ok. split; [|split; [|split; [|split; [|split; [|split]]]]].
  - cbn. repeat (constructor; try discriminate); cbn; auto.
  - cbn. repeat (constructor; try discriminate).
  - cbn. repeat constructor; cbn; intuition discriminate.
  - unfold swap_rule. cbn [body]. tokens.
  - unfold swap_rule. cbn [body]. normals.
  - cbn. repeat split; auto.
  - cbn. repeat split; auto.
Qed.
Definition swap_text (x y : string) : obj :=
  of_list [S_ "let"; of_list [of_list [S_ "tmp"; S_ x]]; of_list [S_ "set!"; S_ x; S_ y]; of_list [S_ "set!"; S_ y; S_ "tmp"]].
(** The variables that a template introduces are not renamed: they capture those of
    the use.  (swap! tmp x) sets x to itself. *)
Theorem C67_hygiene_refuted : exists r, rule_ok [] r /\ exists N, forall f, N <= f ->
  (exists v, expand_use f (macro_of [] [r]) (of_list [S_ "swap!"; S_ "p"; S_ "q"]) = MOk v /\ strip v = swap_text "p" "q") /\
  (exists v, expand_use f (macro_of [] [r]) (of_list [S_ "swap!"; S_ "tmp"; S_ "q"]) = MOk v /\
     strip v = of_list [S_ "let"; of_list [of_list [S_ "tmp"; S_ "tmp"]]; of_list [S_ "set!"; S_ "tmp"; S_ "q"]; of_list [S_ "set!"; S_ "q"; S_ "tmp"]]).
Proof.
  exists swap_rule. split; [exact swap_ok|]. exists 40. intros f Hf. do 40 (destruct f as [|f]; [lia|]). clear Hf. split; eexists; split; reflexivity.
Qed.
(** The name of the macro alone: an error of car instead of bad syntax. *)
Theorem C67_bare_use_refuted : exists r, rule_ok [] r /\ (forall bs, ~ matches r (S_ "swap!") bs) /\ exists N, forall f, N <= f ->
  expand_use f (macro_of [] [r]) (S_ "swap!") = MErr.
Proof.
  exists swap_rule. split; [exact swap_ok|]. split.
  - intros bs H. unfold matches, rule_pat in H. cbn [swap_rule rargs headed] in H.
    inversion H as [| | |? ? ? es rest b bt SP PL PT| | |]; subst. inversion PL; subst. inversion SP.
  - exists 10. intros f Hf. do 10 (destruct f as [|f]; [lia|]). reflexivity.
Qed.

(** Two rules with an ellipsis and a literal:
    (sum) -> 0, (sum in e ...) -> (+ e ... 0) *)
Definition sum_rules : list rule :=
  [Rule (nm "sum") (AList [] None) (TConst (OFix 0));
   Rule (nm "sum") (AEll [PLit (OSym (nm "in"))] (PVar (nm "e")) [] None) (L_ [I_ "+"; TRep (I_ "e"); TConst (OFix 0)])].
Example C67_met : Forall (rule_ok [nm "in"]) sum_rules /\ sum_rules <> [] /\
  define_rules 60 (rules_text [nm "in"] sum_rules) = Some (macro_of [nm "in"] sum_rules) /\
  (exists v, expand_use 60 (macro_of [nm "in"] sum_rules) (of_list [S_ "sum"]) = MOk v /\ strip v = OFix 0) /\
  (exists v, expand_use 60 (macro_of [nm "in"] sum_rules) (of_list [S_ "sum"; S_ "in"; OFix 1; S_ "y"]) = MOk v /\
             strip v = of_list [S_ "+"; OFix 1; S_ "y"; OFix 0]) /\
  expand_use 60 (macro_of [nm "in"] sum_rules) (of_list [S_ "sum"; S_ "of"; OFix 1]) = MNo.
Proof.
  split; [|split; [discriminate|split; [reflexivity|split; [eexists; split; reflexivity|split; [eexists; split; reflexivity|reflexivity]]]]].
  unfold sum_rules. constructor; [|constructor; [|constructor]]; unfold rule_ok.
  - split; [|split; [|split; [|split; [|split; [|split]]]]]; cbn; repeat (constructor; try discriminate).
  - split; [|split; [|split; [|split; [|split; [|split]]]]]; cbn.
    + repeat (constructor; try discriminate); cbn; auto; intuition discriminate.
    + repeat (constructor; try discriminate).
    + repeat constructor; cbn; intuition discriminate.
    + tokens.
    + normals.
    + repeat split; auto.
    + repeat split; auto. exists (nm "e"). do 2 eexists. split; [left; reflexivity|]. split; [reflexivity|vm_compute; lia].
Qed.
(** sequences of different lengths *)
Definition zip_rule : rule :=
  Rule (nm "zip") (AList [PEll [] (PVar (nm "a")) [] None; PEll [] (PVar (nm "b")) [] None] None)
       (L_ [I_ "list"; TRep (L_ [I_ "cons"; I_ "a"; I_ "b"])]).
Example C67_lengths : rule_ok [] zip_rule /\
  (exists v, expand_use 60 (macro_of [] [zip_rule]) (of_list [S_ "zip"; of_list [OFix 1; OFix 2]; of_list [OFix 3; OFix 4]]) = MOk v /\
     strip v = of_list [S_ "list"; of_list [S_ "cons"; OFix 1; OFix 3]; of_list [S_ "cons"; OFix 2; OFix 4]]) /\
  expand_use 60 (macro_of [] [zip_rule]) (of_list [S_ "zip"; of_list [OFix 1; OFix 2]; of_list [OFix 3]]) = MErr.
Proof.
  split; [|split; [eexists; split; reflexivity|reflexivity]].
  split; [|split; [|split; [|split; [|split; [|split]]]]]; cbn.
  - repeat (constructor; try discriminate); cbn; auto.
  - repeat (constructor; try discriminate).
  - repeat constructor; cbn; intuition discriminate.
  - tokens.
  - normals.
  - repeat split; auto.
  - repeat split; auto. exists (nm "a"). do 2 eexists. split; [right; left; reflexivity|]. split; [reflexivity|vm_compute; lia].
Qed.
Example C67_with : exists bs, with_syntax 30 (map pobj [PVar (nm "x"); PEll [] (PVar (nm "y")) [] None]) [OFix 1; of_list [OFix 2; OFix 3]] = MOk bs /\
  map strip bs = [OFix 1; of_list [OFix 2; OFix 3]] /\
  with_syntax 30 (map pobj [PVar (nm "x"); PEll [] (PVar (nm "y")) [] None]) [OFix 1; OFix 2] = MNo.
Proof. eexists. split; [reflexivity|]. split; reflexivity. Qed.

Print Assumptions C67_text.
Print Assumptions C67_accepted.
Print Assumptions C67_definition.
Print Assumptions C67_use_partial.
Print Assumptions C67_keyword.
Print Assumptions C67_no_rules_refuted.
Print Assumptions C67_with_syntax.
Print Assumptions C67_hygiene_refuted.
Print Assumptions C67_bare_use_refuted.
