(** Specification of templates and lemmas. *)
From Coq Require Import ZArith NArith Bool Ascii String List Arith Lia.
From Verif Require Import Base Check Expand LibRead LibReadProofs StxCase StxCaseProofs Template.
Import ListNotations.
Local Open Scope list_scope.

(** * Specification *)

(** Templates.  [TRep t]: the subtemplate t followed by an ellipsis, only as an
    element of a list or vector; [TList es tl]: (e1 ... en) or (e1 ... en . tl). *)
Inductive tmpl : Type :=
| TConst (d : obj)
| TId (x : list byte)
| TRep (t : tmpl)
| TList (es : list tmpl) (tl : option tmpl)
| TVec (es : list tmpl).

(** The syntax object of a template. *)
Fixpoint tobj (t : tmpl) : obj :=
  let elems es := flat_map (fun e => match e with TRep t => [tobj t; DOTS] | _ => [tobj e] end) es in
  match t with
  | TConst d => OSyntax d OFalse
  | TId x => OSyntax (OSym x) OFalse
  | TRep t => tobj t
  | TList es tl => OSyntax (chain (elems es) (match tl with Some t => tobj t | None => ONull end)) OFalse
  | TVec es => OSyntax (OVec (elems es)) OFalse
  end.
(** The identifiers in a template, in the order of the text. *)
Fixpoint ids (t : tmpl) : list (list byte) :=
  match t with
  | TConst _ => []
  | TId x => [x]
  | TRep t => ids t
  | TList es tl => flat_map ids es ++ match tl with Some t => ids t | None => [] end
  | TVec es => flat_map ids es
  end.

(** An environment gives the pattern variables: how many ellipses the variable still
    has to be under, and its value, a list nested as deep. *)
Definition env := list byte -> option (nat * obj).
(** the environment of the i-th repetition *)
Definition at_ (i : nat) (rho : env) : env := fun x =>
  match rho x with
  | Some (S k, v) => match to_list v with
                     | Some l => match nth_error l i with Some w => Some (k, w) | None => None end
                     | None => None
                     end
  | r => r
  end.
(** the values that a repetition goes through: one for each occurrence of a variable
    with ellipses left *)
Definition runs (rho : env) (xs : list (list byte)) : list obj :=
  flat_map (fun x => match rho x with Some (S _, v) => [v] | _ => [] end) xs.
(** the number of repetitions: there must be a variable to go through, and all of
    them must be lists of the same length *)
Definition repetitions (rho : env) (xs : list (list byte)) : option nat :=
  match runs rho xs with
  | [] => None
  | v :: vs =>
      match to_list v with
      | Some l => if forallb (fun w => match to_list w with Some m => length m =? length l | None => false end) vs
                  then Some (length l) else None
      | None => None
      end
  end.
Fixpoint oconcat (l : list (option (list obj))) : option (list obj) :=
  match l with
  | [] => Some []
  | o :: r => match o, oconcat r with Some a, Some b => Some (a ++ b) | _, _ => None end
  end.
(** [insts rho t]: the data that the element [t] of a template stands for; a
    subtemplate with an ellipsis stands for any number, anything else for one.
    [None]: the template has no meaning. *)
Fixpoint insts (rho : env) (t : tmpl) : option (list obj) :=
  match t with
  | TConst d => Some [d]
  | TId x => match rho x with
             | None => Some [OSym x]
             | Some (0, v) => Some [strip v]
             | Some (S _, _) => None
             end
  | TRep t => match repetitions rho (ids t) with
              | Some n => oconcat (map (fun i => insts (at_ i rho) t) (seq 0 n))
              | None => None
              end
  | TList es tl =>
      match oconcat (map (insts rho) es) with
      | Some ds => match tl with
                   | None => Some [chain ds ONull]
                   | Some t => match insts rho t with Some [r] => Some [chain ds r] | _ => None end
                   end
      | None => None
      end
  | TVec es => match oconcat (map (insts rho) es) with Some ds => Some [OVec ds] | None => None end
  end.
Definition inst (rho : env) (t : tmpl) : option obj :=
  match insts rho t with Some [d] => Some d | _ => None end.

(** Well-formed templates: constants are not lists, vectors, boxes or symbols, no
    identifier is an ellipsis, ellipses follow elements, and a list with an ellipsis
    has no tail. *)
Definition leafp (d : obj) : bool :=
  match d with
  | OPair _ _ | OVec _ | OEmptyVec | OSyntax _ _ | OSym _ | OBox _ => false
  | _ => true
  end.
Definition is_rep (t : tmpl) : bool := match t with TRep _ => true | _ => false end.
Definition is_list (t : tmpl) : bool := match t with TList _ _ => true | _ => false end.
Inductive tok : tmpl -> Prop :=
| TokConst : forall d, leafp d = true -> tok (TConst d)
| TokId : forall x, x <> s2b "..." -> tok (TId x)
| TokList : forall es tl, es <> [] -> Forall tel es ->
    (forall t, tl = Some t -> tok t /\ is_list t = false /\ existsb is_rep es = false) -> tok (TList es tl)
| TokVec : forall es, Forall tel es -> tok (TVec es)
with tel : tmpl -> Prop :=
| TelOne : forall t, tok t -> tel t
| TelRep : forall t, tok t -> tel (TRep t).

(** * Induction *)
Section TInd.
  Variable P : tmpl -> Prop.
  Hypothesis Hc : forall d, P (TConst d).
  Hypothesis Hi : forall x, P (TId x).
  Hypothesis Hr : forall t, P t -> P (TRep t).
  Hypothesis Hl : forall es tl, Forall P es -> (forall t, tl = Some t -> P t) -> P (TList es tl).
  Hypothesis Hv : forall es, Forall P es -> P (TVec es).
  Fixpoint tmpl_ind_strong (t : tmpl) : P t :=
    let fix go (l : list tmpl) : Forall P l :=
      match l with [] => Forall_nil P | x :: r => Forall_cons x (tmpl_ind_strong x) (go r) end in
    let opt (t : option tmpl) : forall t', t = Some t' -> P t' :=
      match t return forall t', t = Some t' -> P t' with
      | Some t => fun t' E => match E in _ = o return match o with Some y => P y | None => True end with
                              | eq_refl => tmpl_ind_strong t end
      | None => fun t' E => match E in _ = o return match o with Some y => P y | None => True end with
                            | eq_refl => Logic.I end
      end in
    match t with
    | TConst d => Hc d | TId x => Hi x | TRep t => Hr t (tmpl_ind_strong t)
    | TList es tl => Hl es tl (go es) (opt tl)
    | TVec es => Hv es (go es)
    end.
End TInd.

(** * Parsing *)
Fixpoint tsize (t : tmpl) : nat :=
  match t with
  | TConst _ | TId _ => 1
  | TRep t => S (tsize t)
  | TList es tl => 2 + list_sum (map tsize es) + match tl with Some t => tsize t | None => 0 end
  | TVec es => 3 + list_sum (map tsize es)
  end.
Section P.
  Variable get : env.
  Definition plist (is : list instr) : instr := ISubst (wildcards (length is) false) (ranges (length is) false) is.
  Definition ptlist (is : list instr) (i : instr) : instr :=
    ISubst (wildcards (length is) true) (ranges (length is) true) (is ++ [i]).
  Fixpoint pinstr (d : nat) (t : tmpl) : tres instr :=
    match t with
    | TConst c => TOk (IConst c)
    | TId x => match get x with
               | Some (p, v) => if d <? p then TBad else TOk (IVar (x, p, v))
               | None => TOk (IConst (OSym x))
               end
    | TRep t => tbind (pinstr (S d) t) (fun i => TOk (IAppend [] [] i))
    | TList es tl =>
        tbind (tmap (pinstr d) es) (fun is =>
          match tl with
          | Some t => tbind (pinstr d t) (fun i => TOk (ptlist is i))
          | None => TOk (plist is)
          end)
    | TVec es =>
        match es with
        | [] => TOk (IVector (IConst ONull))
        | _ => tbind (tmap (pinstr d) es) (fun is => TOk (IVector (plist is)))
        end
    end.
  Definition eobj (e : tmpl) : list obj := match e with TRep t => [tobj t; DOTS] | _ => [tobj e] end.

  Lemma tobj_stx : forall t, (exists e, tobj t = OSyntax e OFalse).
  Proof. induction t using tmpl_ind_strong; cbn [tobj]; eauto. Qed.
  Lemma tobj_no_dots : forall t, tok t -> dotsp (tobj t) = false.
  Proof.
    intros t H. destruct H; cbn [tobj]; unfold dotsp, stx_is; cbn [identifierp]; auto.
    - destruct d; try discriminate; auto.
    - destruct (list_eq_dec ascii_dec x (s2b "...")); [contradiction|auto].
    - destruct es as [|e es]; [congruence|]. cbn [flat_map]. destruct e; reflexivity.
  Qed.
  Lemma tok_not_rep : forall t, tok t -> is_rep t = false.
  Proof. intros t H; destruct H; auto. Qed.
  Lemma eobj_one : forall t, is_rep t = false -> eobj t = [tobj t].
  Proof. destruct t; cbn; congruence. Qed.
  Lemma titems_S : forall pr d x rest, titems pr d (x :: rest) =
    match rest with
    | [] => tbind (pr d x) (fun i => TOk [i])
    | y :: rest' =>
        if dotsp y
        then tbind (pr (S d) x) (fun i => tbind (titems pr d rest') (fun is => TOk (IAppend [] [] i :: is)))
        else tbind (pr d x) (fun i => tbind (titems pr d rest) (fun is => TOk (i :: is)))
    end.
  Proof. intros. destruct rest; reflexivity. Qed.
  Lemma tmap_S : forall {A B} (g : A -> tres B) x r,
    tmap g (x :: r) = tbind (g x) (fun y => tbind (tmap g r) (fun ys => TOk (y :: ys))).
  Proof. reflexivity. Qed.
  Lemma titems_spec : forall pr d es,
    Forall tel es ->
    Forall (fun t => tok t -> forall d, pr d (tobj t) = pinstr d t) (map (fun e => match e with TRep t => t | t => t end) es) ->
    titems pr d (flat_map eobj es) = tmap (pinstr d) es.
  Proof.
    intros pr d es HT. induction HT as [|e es HE HT IH]; intros HF; [reflexivity|].
    cbn [map] in HF. inversion HF as [|? ? Hx HF']; subst. specialize (IH HF'). cbn [flat_map]. rewrite tmap_S.
    inversion HE as [t K|t K]; subst.
    - rewrite (eobj_one e) by (apply tok_not_rep; auto). cbn [app]. rewrite titems_S.
      assert (Hx' : pr d (tobj e) = pinstr d e) by (destruct e; try (apply Hx; auto); inversion K).
      rewrite Hx'. rewrite IH.
      destruct es as [|e2 es].
      + cbn [flat_map tmap]. destruct (pinstr d e); reflexivity.
      + assert (EX : exists y r, flat_map eobj (e2 :: es) = y :: r /\ dotsp y = false).
        { inversion HT as [|? ? H2 _]; subst. cbn [flat_map]. inversion H2 as [t K2|t K2]; subst.
          - rewrite (eobj_one e2) by (apply tok_not_rep; auto). exists (tobj e2). eexists. split; [reflexivity|]. apply tobj_no_dots; auto.
          - cbn [eobj app]. exists (tobj t). eexists. split; [reflexivity|]. apply tobj_no_dots; auto. }
        destruct EX as [y [r [EX ND]]]. rewrite EX. rewrite ND. auto.
    - cbn [eobj app]. rewrite titems_S. change (dotsp DOTS) with true. cbv iota. rewrite IH. cbn [pinstr].
      rewrite (Hx K). destruct (pinstr (S d) t); reflexivity.
  Qed.
  Lemma tspine_chain : forall l t, (forall a d, t <> OPair a d) -> (forall a d m, t <> OSyntax (OPair a d) m) ->
    tspine (chain l t) = (l, match t with ONull => None | _ => Some t end).
  Proof.
    induction l as [|x l IH]; intros t H1 H2; cbn [chain fold_right tspine].
    - destruct t; try reflexivity; [exfalso; eapply H1; reflexivity|]. destruct t1; try reflexivity. exfalso; eapply H2; reflexivity.
    - fold (chain l t). rewrite IH; auto.
  Qed.
  Lemma tobj_nonlist : forall t, tok t -> is_list t = false ->
    (forall a d, tobj t <> OPair a d) /\ (forall a d m, tobj t <> OSyntax (OPair a d) m).
  Proof.
    intros t H L. destruct H; cbn [tobj] in *; try discriminate; split; intros; try discriminate.
    destruct d; discriminate.
  Qed.
  Lemma flat_map_elems : forall es, flat_map (fun e => match e with TRep t => [tobj t; DOTS] | _ => [tobj e] end) es = flat_map eobj es.
  Proof. reflexivity. Qed.
  Lemma to_stx_elems : forall es, Forall tel es -> to_stx (of_list (flat_map eobj es)) = OSyntax (chain (flat_map eobj es) ONull) OFalse.
  Proof.
    intros es H. rewrite of_list_chain.
    assert (G : forall l, Forall (fun o => exists e, o = OSyntax e OFalse) l -> to_tail (chain l ONull) = chain l ONull).
    { induction 1 as [|x l [e ->] _ IH]; [reflexivity|]. cbn [chain fold_right]. fold (chain l ONull). cbn [to_tail]. rewrite IH. reflexivity. }
    assert (F : Forall (fun o => exists e, o = OSyntax e OFalse) (flat_map eobj es)).
    { clear. induction es as [|e es IH]; cbn [flat_map]; [constructor|]. apply Forall_app. split; auto.
      destruct e; cbn [eobj]; repeat constructor; try apply tobj_stx. unfold DOTS. eauto. }
    inversion F as [|x l [e E] FF E2]; [reflexivity|]. subst. cbn [chain fold_right]. fold (chain l ONull).
    rewrite LibReadProofs.to_stx_pair. rewrite (G l FF). reflexivity.
  Qed.
  Lemma tparse_S : forall f d t, tparse get (S f) d t =
        match stx_pair t with
        | Some _ =>
            let '(lst, tail) := tspine t in
            tbind (titems (tparse get f) d lst) (fun is =>
              match tail with
              | Some tl => tbind (tparse get f d tl) (fun i => TOk (ptlist is i))
              | None => TOk (plist is)
              end)
        | None =>
            if stx_vector t
            then match t with
                 | OSyntax e _ => match vec_elems e with
                                  | Some es => tbind (tparse get f d (to_stx (of_list es))) (fun i => TOk (IVector i))
                                  | None => TBad
                                  end
                 | _ => TBad
                 end
            else match t with
                 | OSyntax (OSym x) _ =>
                     match get x with
                     | Some (p, v) => if d <? p then TBad else TOk (IVar (x, p, v))
                     | None => TOk (IConst (OSym x))
                     end
                 | OSyntax e _ => TOk (IConst e)
                 | _ => TBad
                 end
        end.
  Proof. reflexivity. Qed.
  Lemma tsize_in : forall es e, In e es -> tsize e <= list_sum (map tsize es).
  Proof.
    induction es as [|x es IH]; cbn [In map list_sum fold_right]; [tauto|]. intros e [->|H]; [lia|]. apply IH in H. unfold list_sum in H. lia.
  Qed.
  Lemma pairs_spec : forall f d es, es <> [] -> Forall tel es ->
    Forall (fun t => forall f d, tok t -> tsize t <= f -> tparse get f d (tobj t) = pinstr d t)
      (map (fun e => match e with TRep t => t | t => t end) es) ->
    list_sum (map tsize es) <= f ->
    titems (tparse get f) d (flat_map eobj es) = tmap (pinstr d) es.
  Proof.
    intros f d es NE HT HF HS. apply titems_spec; auto. rewrite Forall_forall in *. intros t HI K d'. apply HF; auto.
    apply in_map_iff in HI. destruct HI as [e [E HI]]. apply tsize_in in HI. subst. destruct e; cbn [tsize] in *; lia.
  Qed.
  Lemma chain_hd : forall es t, es <> [] -> exists a b, chain (flat_map eobj es) t = OPair a b.
  Proof. intros [|e es] t H; [congruence|]. cbn [flat_map]. destruct e; cbn [eobj app chain fold_right]; eauto. Qed.
  Theorem tparse_spec : forall t f d, tok t -> tsize t <= f -> tparse get f d (tobj t) = pinstr d t.
  Proof.
    assert (IN : forall es, Forall (fun t => forall f d, tok t -> tsize t <= f -> tparse get f d (tobj t) = pinstr d t) es ->
       (forall t, In (TRep t) es -> forall f d, tok t -> tsize t <= f -> tparse get f d (tobj t) = pinstr d t) ->
       Forall (fun t => forall f d, tok t -> tsize t <= f -> tparse get f d (tobj t) = pinstr d t)
         (map (fun e => match e with TRep t => t | t => t end) es)).
    { intros es H1 H2. rewrite Forall_forall in *. intros t HI. apply in_map_iff in HI. destruct HI as [e [E HI]].
      destruct e; subst; auto. }
    intros t. assert (G : forall n t, tsize t <= n -> forall f d, tok t -> tsize t <= f -> tparse get f d (tobj t) = pinstr d t); [|eauto].
    clear t. induction n as [|n IH]; intros t Hn f d K Hf; [destruct t; cbn [tsize] in Hn; lia|].
    assert (HE : forall es, list_sum (map tsize es) <= n ->
       Forall (fun t => forall f d, tok t -> tsize t <= f -> tparse get f d (tobj t) = pinstr d t)
         (map (fun e => match e with TRep t => t | t => t end) es)).
    { intros es H. apply IN.
      - apply Forall_forall. intros t' HI. apply tsize_in in HI. apply IH. lia.
      - intros t' HI. apply tsize_in in HI. cbn [tsize] in HI. apply IH. lia. }
    destruct f as [|f]; [destruct t; cbn [tsize] in Hf; lia|]. rewrite tparse_S.
    inversion K as [c L|x NX|es tl NE HT HTL|es HT]; subst; cbn [tobj].
    - cbn [stx_pair stx_vector]. destruct c; try discriminate; reflexivity.
    - cbn. destruct (get x) as [[p v]|]; reflexivity.
    - rewrite flat_map_elems. cbn [tsize] in *.
      assert (TLS : forall t, tl = Some t -> (forall a d, tobj t <> OPair a d) /\ (forall a d m, tobj t <> OSyntax (OPair a d) m)).
      { intros t E. destruct (HTL t E) as [A [B _]]. apply tobj_nonlist; auto. }
      pose (tt := match tl with Some t => tobj t | None => ONull end). fold tt.
      destruct (chain_hd es tt NE) as [a [b E]]. rewrite E. cbn [stx_pair].
      change (tspine (OSyntax (OPair a b) OFalse)) with (tspine (OPair a b)). rewrite <- E.
      rewrite tspine_chain; [|destruct tl as [t|]; [exact (proj1 (TLS t eq_refl))|discriminate]|destruct tl as [t|]; [exact (proj2 (TLS t eq_refl))|discriminate]].
      rewrite pairs_spec by (auto; try apply HE; lia). cbn [pinstr].
      destruct (tmap (pinstr d) es); try reflexivity. cbn [tbind]. subst tt. destruct tl as [t|]; [|reflexivity].
      destruct (tobj_stx t) as [e EQ]. rewrite EQ at 1. destruct (HTL t eq_refl) as [A _]. cbn iota.
      rewrite EQ. rewrite <- EQ. rewrite IH by (auto; lia). reflexivity.
    - rewrite flat_map_elems. cbn [tsize] in *. cbn [stx_pair stx_vector vec_elems]. rewrite to_stx_elems by auto.
      destruct f as [|f]; [lia|]. rewrite tparse_S. cbn [pinstr]. destruct es as [|e es].
      + reflexivity.
      + destruct (chain_hd (e :: es) ONull ltac:(discriminate)) as [a [b E]]. rewrite E. cbn [stx_pair].
        change (tspine (OSyntax (OPair a b) OFalse)) with (tspine (OPair a b)). rewrite <- E.
        rewrite tspine_chain by discriminate. rewrite pairs_spec by (auto; try apply HE; try discriminate; lia).
        destruct (tmap (pinstr d) (e :: es)); reflexivity.
  Qed.

  (** * Substitution *)
  Definition nc (i : instr) : bool := negb (is_const i).
  Definition slot (i : instr) : obj := if is_const i then const_of i else WILD.
  Definition aop (x : instr * op) : op := if is_append (fst x) then OpApp (snd x) else snd x.
  Definition ncp (x : instr * op) : bool := nc (fst x).

  Lemma strip_idem : forall o, strip (strip o) = strip o.
  Proof.
    induction o using obj_ind_strong; cbn [strip]; auto; try congruence.
    f_equal. induction H as [|x l E _ IH]; cbn [map]; auto. rewrite E, IH. auto.
  Qed.
  Lemma strip_chain : forall l t, strip (chain l t) = chain (map strip l) (strip t).
  Proof. induction l as [|x l IH]; intros t; cbn [chain fold_right map strip]; auto. unfold chain in IH. rewrite IH. auto. Qed.
  Lemma chain_app : forall a b t, chain (a ++ b) t = chain a (chain b t).
  Proof. intros. unfold chain. apply fold_right_app. Qed.
  Lemma to_list_chain : forall l t m, to_list t = Some m -> to_list (chain l t) = Some (l ++ m).
  Proof. induction l as [|x l IH]; intros t m H; cbn [chain fold_right app to_list]; auto. unfold chain in IH. rewrite (IH _ _ H). auto. Qed.

  Lemma replace_all : forall ps t q, replace_slots (chain (repeat WILD (length ps)) t) (ps ++ q) =
    tbind (replace_slots t q) (fun r => TOk (chain ps r)).
  Proof.
    induction ps as [|p ps IH]; intros t q; cbn [length repeat chain fold_right app].
    - destruct (replace_slots t q); reflexivity.
    - fold (chain (repeat WILD (length ps)) t). cbn [replace_slots]. rewrite IH. destruct (replace_slots t q); reflexivity.
  Qed.
  Lemma fold_consts_spec : forall ins ops, length ins = length ops ->
    fold_consts ins ops = TOk (filter nc ins, map snd (filter ncp (combine ins ops)), map slot ins).
  Proof.
    induction ins as [|i ins IH]; intros [|o ops] H; try discriminate; [reflexivity|]. cbn [fold_consts].
    rewrite IH by (injection H; auto). cbn [tbind combine filter map]. unfold ncp, nc, slot. cbn [fst].
    destruct (is_const i); reflexivity.
  Qed.
  Lemma append_ops_spec : forall ins ops, length ins = length ops ->
    append_ops ins ops = TOk (map aop (combine ins ops)).
  Proof.
    induction ins as [|i ins IH]; intros [|o ops] H; try discriminate; [reflexivity|]. cbn [append_ops].
    rewrite IH by (injection H; auto). reflexivity.
  Qed.
  Lemma filter_combine : forall ins (ops : list op), length ins = length ops ->
    combine (filter nc ins) (map snd (filter ncp (combine ins ops))) = filter ncp (combine ins ops) /\
    length (filter nc ins) = length (map snd (filter ncp (combine ins ops))).
  Proof.
    induction ins as [|i ins IH]; intros [|o ops] H; try discriminate; [split; reflexivity|].
    destruct (IH ops ltac:(injection H; auto)) as [A B]. cbn [filter combine]. change (ncp (i, o)) with (nc i).
    destruct (nc i); cbn [map combine length snd]; [|auto]. rewrite A, B. auto.
  Qed.
  Lemma filter_no_const : forall ins, existsb is_const ins = false -> filter nc ins = ins.
  Proof.
    induction ins as [|i ins IH]; cbn [existsb filter]; auto. intros H. apply orb_false_iff in H. destruct H as [A B].
    unfold nc at 1. rewrite A. cbn. f_equal. auto.
  Qed.
  Lemma filter_no_const2 : forall ins (ops : list op), existsb is_const ins = false -> filter ncp (combine ins ops) = combine ins ops.
  Proof.
    induction ins as [|i ins IH]; intros [|o ops]; cbn [existsb filter combine]; auto. intros H. apply orb_false_iff in H. destruct H as [A B].
    unfold ncp at 1, nc at 1. cbn [fst]. rewrite A. cbn. f_equal. auto.
  Qed.
  Lemma slots_no_const : forall ins, existsb is_const ins = false -> map slot ins = repeat WILD (length ins).
  Proof.
    induction ins as [|i ins IH]; cbn [existsb map length repeat]; auto. intros H. apply orb_false_iff in H. destruct H as [A B].
    unfold slot at 1. rewrite A. f_equal. auto.
  Qed.
  Lemma filter_nc_false : forall ins, existsb is_const (filter nc ins) = false.
  Proof.
    induction ins as [|i ins IH]; cbn [filter]; auto. unfold nc at 1. destruct (is_const i) eqn:E; cbn; auto. rewrite E. auto.
  Qed.
  Lemma filter_nc_all : forall ins, forallb is_const ins = false -> forallb is_const (filter nc ins) = false.
  Proof.
    induction ins as [|i ins IH]; cbn [forallb filter]; auto. unfold nc at 1. destruct (is_const i) eqn:E; cbn; auto. rewrite E. auto.
  Qed.

  Definition sfx (tl : option instr) : list instr := match tl with Some i => [i] | None => [] end.
  Definition has (tl : option instr) : bool := match tl with Some _ => true | None => false end.
  Definition tform (tl : option instr) : obj := match tl with Some i => slot i | None => ONull end.
  Lemma ranges_length : forall is tl, length (is ++ sfx tl) = length (ranges (length is) (has tl)).
  Proof. intros. unfold ranges. rewrite !app_length, map_length, seq_length. destruct tl; reflexivity. Qed.
  Lemma wildcards_chain : forall n b, wildcards n b = chain (repeat WILD n) (if b then WILD else ONull).
  Proof. reflexivity. Qed.
  Lemma replace_form : forall is tl (g : instr -> obj),
    replace_slots (wildcards (length is) (has tl)) (map g (is ++ sfx tl)) =
    TOk (chain (map g is) (match tl with Some i => g i | None => ONull end)).
  Proof.
    intros. rewrite wildcards_chain, map_app. rewrite <- (map_length g is). rewrite replace_all. destruct tl; reflexivity.
  Qed.
  Lemma opt_subst_spec : forall is tl,
    opt_subst 2 (wildcards (length is) (has tl)) (ranges (length is) (has tl)) (is ++ sfx tl) =
    TOk (if forallb is_const (is ++ sfx tl)
         then IConst (chain (map const_of is) (match tl with Some i => const_of i | None => ONull end))
         else ISubst (chain (map slot is) (tform tl))
                (map aop (filter ncp (combine (is ++ sfx tl) (ranges (length is) (has tl)))))
                (filter nc (is ++ sfx tl))).
  Proof.
    intros is tl. pose proof (ranges_length is tl) as RL. change (opt_subst 2) with (fun form ops ins =>
      if forallb is_const ins
      then tbind (replace_slots form (map const_of ins)) (fun d => TOk (IConst d))
      else if existsb is_const ins
      then tbind (fold_consts ins ops) (fun r =>
             let '(is, os, ps) := r in
             tbind (replace_slots form ps) (fun form' => opt_subst 1 form' os is))
      else tbind (append_ops ins ops) (fun os => TOk (ISubst form os ins))). cbv beta.
    destruct (forallb is_const (is ++ sfx tl)) eqn:A.
    - rewrite replace_form. reflexivity.
    - destruct (existsb is_const (is ++ sfx tl)) eqn:E.
      + rewrite fold_consts_spec by auto. cbn [tbind]. rewrite replace_form. cbn [tbind]. cbn [opt_subst].
        rewrite filter_nc_all by auto. rewrite filter_nc_false. destruct (filter_combine _ _ RL) as [F1 F2].
        rewrite append_ops_spec by auto. cbn [tbind]. rewrite F1. reflexivity.
      + rewrite append_ops_spec by auto. cbn [tbind]. rewrite filter_no_const2, filter_no_const by auto.
        f_equal. f_equal. rewrite wildcards_chain. rewrite existsb_app in E. apply orb_false_iff in E. destruct E as [E1 E2].
        rewrite slots_no_const by auto. f_equal. destruct tl as [i|]; [|reflexivity]. cbn in *. unfold slot.
        destruct (is_const i); [discriminate|reflexivity].
  Qed.

  Lemma run_at_chain : forall pre k g, run_at (length pre) k (chain pre g) = tbind (k g) (fun r => TOk (chain pre r)).
  Proof.
    induction pre as [|x pre IH]; intros k g; cbn [length run_at chain fold_right].
    - destruct (k g); reflexivity.
    - fold (chain pre g). rewrite IH. destruct (k g); reflexivity.
  Qed.
  Definition piece (vm : list (list byte * obj)) (i : instr) (l : list obj) : Prop :=
    if is_const i then l = [strip (const_of i)]
    else exists v, build vm i = TOk v /\ if is_append i then v = of_list l else l = [v].
  Lemma run_pieces : forall vm is ls, Forall2 (piece vm) is ls -> forall args, tmap (build vm) (filter nc is) = TOk args ->
    forall pre tl, (existsb is_append is = true -> exists m, to_list tl = Some m) -> forall ops2 args2,
    run (chain pre (chain (map (fun i => strip (slot i)) is) tl))
        (rev (map aop (filter ncp (combine is (map OpAt (seq (length pre) (length is)))))) ++ ops2) (rev args ++ args2) =
    run (chain pre (chain (concat ls) tl)) ops2 args2.
  Proof.
    intros vm is ls H. induction H as [|i l is ls HP H IH]; intros args HA pre tl HL ops2 args2.
    - cbn in HA. injection HA as <-. reflexivity.
    - cbn [length seq map combine filter]. cbn [existsb] in HL. cbn [filter] in HA. unfold ncp at 1. cbn [fst].
      unfold nc at 1. unfold nc at 1 in HA. unfold piece in HP. cbn [concat].
      assert (SH : forall a b t, chain pre (chain (a :: b) t) = chain (pre ++ [a]) (chain b t)) by (intros; rewrite chain_app; reflexivity).
      assert (LN : forall a, S (length pre) = length (pre ++ [a])) by (intros; rewrite app_length; cbn; lia).
      destruct (is_const i) eqn:EC; cbn [negb] in *.
      + subst l. rewrite SH. rewrite (LN (strip (slot i))). rewrite IH; [|auto|].
        * unfold slot at 1. rewrite EC. cbn [app]. rewrite <- SH. reflexivity.
        * intros E. apply HL. rewrite E. apply orb_true_r.
      + destruct HP as [v [HB HP]]. rewrite tmap_S in HA. rewrite HB in HA. cbn [tbind] in HA.
        destruct (tmap (build vm) (filter nc is)) as [as'| | |] eqn:HA'; try discriminate. injection HA as <-.
        cbn [map rev]. rewrite <- !app_assoc. rewrite SH. rewrite (LN (strip (slot i))).
        rewrite (IH _ eq_refl); [|intros E; apply HL; rewrite E; apply orb_true_r].
        cbn [app run]. unfold aop at 1. cbn [fst snd]. rewrite <- SH.
        destruct (is_append i) eqn:EA; cbn [run_mode].
        * destruct (HL eq_refl) as [m Hm]. rewrite run_at_chain. cbn [chain fold_right]. fold (chain (concat ls) tl).
          subst v. rewrite to_list_of_list. rewrite (to_list_chain _ _ _ Hm). cbn [tbind]. f_equal. f_equal.
          rewrite of_list_chain. rewrite !chain_app. f_equal. f_equal.
          clear - Hm. revert m Hm. induction tl; intros m Hm; cbn in Hm; try discriminate.
          -- injection Hm as <-. reflexivity.
          -- destruct (to_list tl2) as [m'|]; [|discriminate]. injection Hm as <-. cbn. f_equal. apply IHtl2; auto.
        * subst l. rewrite run_at_chain. reflexivity.
  Qed.

  Definition shows (vm : list (list byte * obj)) (i : instr) (o : option (list obj)) : Prop :=
    match o with
    | Some ds => exists v, build vm i = TOk v /\
                   if is_append i then exists l, v = of_list l /\ map strip l = ds else ds = [strip v]
    | None => build vm i = TErr
    end.
  Lemma shows_piece : forall vm i ds, shows vm i (Some ds) -> exists l, piece vm i l /\ map strip l = ds.
  Proof.
    intros vm i ds [v [HB H]]. unfold piece. destruct (is_const i) eqn:EC.
    - destruct i; try discriminate. cbn in HB. injection HB as <-. cbn in H. subst ds. cbn [const_of]. eexists. split; [reflexivity|].
      cbn. rewrite strip_idem. rewrite (proj1 (strip_to_stx d)). auto.
    - destruct (is_append i).
      + destruct H as [l [-> E]]. exists l. split; auto. eexists; split; eauto.
      + subst ds. exists [v]. split; auto. eexists; split; eauto.
  Qed.
  Lemma shows_all : forall vm is os, Forall2 (shows vm) is os ->
    match oconcat os with
    | Some ds => exists ls args, Forall2 (piece vm) is ls /\ map strip (concat ls) = ds /\ tmap (build vm) (filter nc is) = TOk args
    | None => tmap (build vm) (filter nc is) = TErr
    end.
  Proof.
    intros vm is os H. induction H as [|i o is os HS H IH]; cbn [oconcat].
    - exists [], []. repeat split; constructor.
    - destruct o as [ds|].
      + destruct (shows_piece _ _ _ HS) as [l [HP HL]]. destruct HS as [v [HB _]].
        destruct (oconcat os) as [ds'|].
        * destruct IH as [ls [args [F [E T]]]]. exists (l :: ls). cbn [filter]. destruct (nc i).
          -- exists (v :: args). split; [constructor; auto|]. split; [cbn [concat]; rewrite map_app; congruence|].
             rewrite tmap_S, HB, T. reflexivity.
          -- exists args. split; [constructor; auto|]. split; [cbn [concat]; rewrite map_app; congruence|]. auto.
        * cbn [filter]. destruct (nc i); [rewrite tmap_S, HB, IH; reflexivity|auto].
      + cbn [filter]. unfold nc at 1. unfold shows in HS. destruct i; cbn [is_const negb]; try (rewrite tmap_S, HS; reflexivity).
        cbn in HS. discriminate.
  Qed.
  Lemma to_list_null_chain : forall l, to_list (chain l ONull) = Some l.
  Proof. intros. rewrite <- of_list_chain. apply to_list_of_list. Qed.
  Lemma all_const : forall vm is os, forallb is_const is = true -> Forall2 (shows vm) is os ->
    exists ds, oconcat os = Some ds /\ map strip (map const_of is) = ds.
  Proof.
    intros vm is os HC H. induction H as [|i o is os HS H IH]; cbn [forallb] in HC; [exists []; auto|].
    apply andb_true_iff in HC. destruct HC as [C1 C2]. destruct (IH C2) as [ds [E M]]. destruct i; try discriminate.
    destruct o as [d0|]; [|discriminate]. destruct HS as [v [HB HS]]. cbn in HB, HS. injection HB as <-. subst d0.
    cbn [oconcat map]. rewrite E. eexists. split; [reflexivity|]. cbn. rewrite (proj1 (strip_to_stx d)). congruence.
  Qed.
  Lemma subst_builds : forall is tl, (has tl = true -> existsb is_append is = false) -> (forall it, tl = Some it -> is_append it = false) ->
    exists i, opt_subst 2 (wildcards (length is) (has tl)) (ranges (length is) (has tl)) (is ++ sfx tl) = TOk i /\
      is_append i = false /\
      forall vm os ot, Forall2 (shows vm) is os ->
        match tl with Some it => shows vm it (match ot with Some r => Some [r] | None => None end) | None => ot = Some ONull end ->
        match oconcat os, ot with
        | Some ds, Some r => exists L t, build vm i = TOk (to_stx (chain L t)) /\ map strip L = ds /\ strip t = r /\ (tl = None -> t = ONull)
        | _, _ => build vm i = TErr
        end.
  Proof.
    intros is tl HA HT. rewrite opt_subst_spec. eexists. split; [reflexivity|].
    destruct (forallb is_const (is ++ sfx tl)) eqn:EC.
    - split; [reflexivity|]. intros vm os ot HS HST. rewrite forallb_app in EC. apply andb_true_iff in EC. destruct EC as [C1 C2].
      destruct (all_const _ _ _ C1 HS) as [ds [E M]]. rewrite E. destruct tl as [it|].
      + cbn in C2. destruct it; try discriminate. destruct ot as [r|]; [|discriminate]. destruct HST as [v [HB HV]]. cbn in HB, HV.
        injection HB as <-. exists (map const_of is), d. cbn [build const_of]. split; [reflexivity|]. split; auto. split; [|discriminate].
        rewrite (proj1 (strip_to_stx d)) in HV. congruence.
      + subst ot. exists (map const_of is), ONull. cbn [build]. auto.
    - split; [reflexivity|]. intros vm os ot HS HST. cbn [build]. rewrite filter_app.
      pose proof (shows_all _ _ _ HS) as SA. unfold template_subst. rewrite strip_chain. rewrite map_map.
      assert (TA : forall a b, tmap (build vm) (a ++ b) = tbind (tmap (build vm) a) (fun x => tbind (tmap (build vm) b) (fun y => TOk (x ++ y)))).
      { induction a as [|x a IHa]; intros b; [cbn; destruct (tmap (build vm) b); reflexivity|]. cbn [app]. rewrite !tmap_S. rewrite IHa.
        destruct (build vm x); try reflexivity. cbn [tbind]. destruct (tmap (build vm) a); try reflexivity. cbn [tbind].
        destruct (tmap (build vm) b); reflexivity. }
      rewrite TA. destruct (oconcat os) as [ds|]; [|rewrite SA; reflexivity].
      destruct SA as [ls [args [F [M T]]]]. rewrite T. cbn [tbind].
      assert (CB : combine (is ++ sfx tl) (ranges (length is) (has tl)) = combine is (map OpAt (seq 0 (length is))) ++ match tl with Some it => [(it, OpTail (length is))] | None => [] end).
      { unfold ranges. assert (G : forall (a : list instr) (b : list op) c d, length a = length b -> combine (a ++ c) (b ++ d) = combine a b ++ combine c d).
        { induction a as [|x a IHa]; intros [|y b] c d HL; try discriminate; cbn; auto. f_equal. apply IHa. injection HL; auto. }
        rewrite G by (rewrite map_length, seq_length; auto). f_equal. destruct tl; reflexivity. }
      rewrite CB. rewrite filter_app, map_app.
      destruct tl as [it|]; cbn [sfx tform].
      + specialize (HA eq_refl). specialize (HT it eq_refl). cbn [filter]. unfold ncp at 2. cbn [fst].
        destruct ot as [r|].
        * destruct HST as [v [HB HV]]. rewrite HT in HV. injection HV as HV. destruct (nc it) eqn:EN.
          -- rewrite tmap_S, HB. cbn [tmap tbind]. cbn [map]. rewrite !rev_app_distr. cbn [rev app]. unfold aop at 1. cbn [fst snd]. rewrite HT.
             cbn [run run_mode].
             assert (RA : forall k g, run_at (length is) k (chain (map (fun x => strip (slot x)) is) g) = tbind (k g) (fun r => TOk (chain (map (fun x => strip (slot x)) is) r)))
               by (intros k g; rewrite <- run_at_chain, map_length; reflexivity).
             rewrite RA. cbn [tbind].
             pose proof (run_pieces vm is ls F args T [] v ltac:(rewrite HA; discriminate) [] []) as R. rewrite !app_nil_r in R. cbn [chain fold_right length] in R.
             fold chain in R. unfold chain in *. rewrite R. cbn [run tbind]. exists (concat ls), v.
             split; [reflexivity|]. split; auto. split; [auto|discriminate].
          -- cbn [tmap tbind map]. rewrite !app_nil_r.
             pose proof (run_pieces vm is ls F args T [] (strip (slot it)) ltac:(rewrite HA; discriminate) [] []) as R.
             rewrite !app_nil_r in R. cbn [chain fold_right length] in R. unfold chain in *. rewrite R. cbn [run tbind].
             exists (concat ls), (strip (slot it)). split; [reflexivity|]. split; auto. split; [|discriminate].
             destruct it; try discriminate. cbn in HB. injection HB as <-. unfold slot. cbn [is_const const_of]. rewrite strip_idem.
             rewrite (proj1 (strip_to_stx d)) in HV. auto.
        * cbn in HST. destruct (nc it) eqn:EN; [|destruct it; try discriminate; cbn in HST; discriminate].
          rewrite tmap_S, HST. reflexivity.
      + subst ot. cbn [filter tmap tbind map]. rewrite !app_nil_r.
        pose proof (run_pieces vm is ls F args T [] ONull ltac:(intros _; exists []; reflexivity) [] []) as R.
        rewrite !app_nil_r in R. cbn [chain fold_right length] in R. unfold chain in *. cbn [strip]. rewrite R. cbn [run tbind].
        exists (concat ls), ONull. auto.
  Qed.

  (** * Repetition *)
  Definition pv (xs : list (list byte)) : list pvar :=
    flat_map (fun x => match get x with Some (p, v) => [(x, p, v)] | None => [] end) xs.
  Definition consistent (d : nat) (vm : list (list byte * obj)) (rho : env) (xs : list (list byte)) : Prop :=
    forall x, In x xs -> match get x with
                         | None => rho x = None
                         | Some (p, v) => rho x = Some (p - d, value_of vm (x, p, v))
                         end.
  Definition reps (vs : list obj) : option nat :=
    match vs with
    | [] => None
    | v :: vs =>
        match to_list v with
        | Some l => if forallb (fun w => match to_list w with Some m => length m =? length l | None => false end) vs
                    then Some (length l) else None
        | None => None
        end
    end.
  Lemma repetitions_reps : forall rho xs, repetitions rho xs = reps (runs rho xs).
  Proof. reflexivity. Qed.
  Lemma mapped_values : forall d vm rho xs, consistent d vm rho xs ->
    map (value_of vm) (filter (fun v => d <? pdepth v) (pv xs)) = runs rho xs.
  Proof.
    intros d vm rho xs. induction xs as [|x xs IH]; intros C; [reflexivity|].
    assert (C' : consistent d vm rho xs) by (intros y H; apply C; right; auto). specialize (IH C').
    change (pv (x :: xs)) with (match get x with Some (p, v) => [(x, p, v)] | None => [] end ++ pv xs).
    change (runs rho (x :: xs)) with (match rho x with Some (S _, v) => [v] | _ => [] end ++ runs rho xs). rewrite filter_app, map_app. f_equal; [|exact IH].
    specialize (C x (or_introl eq_refl)). destruct (get x) as [[p v]|]; [|rewrite C; reflexivity].
    rewrite C. cbn [filter]. unfold pdepth. cbn [fst snd]. destruct (d <? p) eqn:E.
    - apply Nat.ltb_lt in E. destruct (p - d) eqn:E2; [lia|]. reflexivity.
    - apply Nat.ltb_ge in E. replace (p - d) with 0 by lia. reflexivity.
  Qed.
  Lemma all_lists_spec : forall vs ls, all_lists vs = Some ls <-> Forall2 (fun v l => to_list v = Some l) vs ls.
  Proof.
    induction vs as [|v vs IH]; intros ls; cbn [all_lists].
    - split; intros H; [injection H as <-; constructor|inversion H; auto].
    - split; intros H.
      + destruct (to_list v) as [l|] eqn:E; [|discriminate]. destruct (all_lists vs) as [ls'|]; [|discriminate].
        injection H as <-. constructor; auto. apply IH. auto.
      + inversion H as [|? l ? ls' E F]; subst. rewrite E. apply IH in F. rewrite F. auto.
  Qed.
  Lemma map_rows_spec : forall vs,
    match reps vs with
    | Some n => exists ls, Forall2 (fun v l => to_list v = Some l) vs ls /\ Forall (fun l => length l = n) ls /\
                  map_rows vs = Some (map (fun i => map (fun m => nth i m ONull) ls) (seq 0 n))
    | None => map_rows vs = None
    end.
  Proof.
    intros [|v vs]; [reflexivity|]. cbn [reps]. unfold map_rows. cbn [all_lists].
    destruct (to_list v) as [l|] eqn:E; [|reflexivity].
    destruct (forallb _ vs) eqn:EF.
    - assert (G : exists ls, Forall2 (fun v l => to_list v = Some l) vs ls /\ Forall (fun m => length m = length l) ls).
      { clear - EF. induction vs as [|w vs IH]; [exists []; split; constructor|]. cbn [forallb] in EF. apply andb_true_iff in EF.
        destruct EF as [A B]. destruct (IH B) as [ls [F1 F2]]. destruct (to_list w) as [m|] eqn:EW; [|discriminate].
        apply Nat.eqb_eq in A. exists (m :: ls). split; constructor; auto. }
      destruct G as [ls [F1 F2]]. exists (l :: ls). split; [constructor; auto|]. split; [constructor; auto|].
      apply all_lists_spec in F1. rewrite F1.
      replace (forallb (fun m => length m =? length l) ls) with true; [reflexivity|]. symmetry. apply forallb_forall.
      rewrite Forall_forall in F2. intros m HI. apply Nat.eqb_eq. auto.
    - destruct (all_lists vs) as [ls|] eqn:EA; [|reflexivity]. apply all_lists_spec in EA.
      replace (forallb (fun m => length m =? length l) ls) with false; [reflexivity|].
      symmetry. clear - EF EA. induction EA as [|w m vs ls EW F IH]; [discriminate|]. cbn [forallb] in *. rewrite EW in EF.
      destruct (length m =? length l); [auto|reflexivity].
  Qed.
  Lemma lookup_app_none : forall c vm x, (forall y w, In (y, w) c -> y <> x) -> lookup (c ++ vm) x = lookup vm x.
  Proof.
    induction c as [|[y w] c IH]; intros vm x H; [reflexivity|]. unfold lookup. cbn [app find fst].
    destruct (list_eq_dec ascii_dec y x) as [E|E]; [exfalso; apply (H y w); [left; auto|auto]|].
    fold (lookup (c ++ vm) x). apply IH. intros y' w' HI. apply (H y' w'). right; auto.
  Qed.
  Lemma lookup_app_some : forall c vm x w0, (exists w, In (x, w) c) -> (forall w, In (x, w) c -> w = w0) -> lookup (c ++ vm) x = Some w0.
  Proof.
    induction c as [|[y w] c IH]; intros vm x w0 [u HI] H; [destruct HI|]. unfold lookup. cbn [app find fst].
    destruct (list_eq_dec ascii_dec y x) as [E|E].
    - subst y. f_equal. cbn. apply H. left; auto.
    - fold (lookup (c ++ vm) x). apply IH; [|intros w' HI'; apply H; right; auto].
      destruct HI as [HI|HI]; [congruence|eauto].
  Qed.
  Lemma in_pv : forall xs y p u, In (y, p, u) (pv xs) <-> In y xs /\ get y = Some (p, u).
  Proof.
    intros xs y p u. unfold pv. rewrite in_flat_map. split.
    - intros [x [HI HJ]]. destruct (get x) as [[q v]|] eqn:E; [|destruct HJ]. destruct HJ as [HJ|[]]. inversion HJ; subst. auto.
    - intros [HI HG]. exists y. split; auto. rewrite HG. left; auto.
  Qed.
  Lemma Forall2_in_l : forall {A B} (R : A -> B -> Prop) l m, Forall2 R l m -> forall x, In x l -> exists y, In (x, y) (combine l m) /\ R x y.
  Proof. induction 1; intros z []; cbn; subst; eauto. destruct (IHForall2 _ H1) as [w [A1 A2]]; eauto. Qed.
  Lemma Forall2_combine_in : forall {A B} (R : A -> B -> Prop) l m, Forall2 R l m -> forall x y, In (x, y) (combine l m) -> R x y /\ In x l.
  Proof. induction 1; intros z w []; cbn; [inversion H1; subst; auto|]. destruct (IHForall2 _ _ H1); auto. Qed.
  Lemma combine_map : forall {A B C D} (f : A -> C) (g : B -> D) l m, combine (map f l) (map g m) = map (fun p => (f (fst p), g (snd p))) (combine l m).
  Proof. induction l as [|a l IH]; intros [|b m]; cbn; auto. rewrite IH. auto. Qed.
  Lemma step_consistent : forall d vm rho xs ls n i, consistent d vm rho xs ->
    let mapped := filter (fun v => d <? pdepth v) (pv xs) in
    Forall2 (fun v l => to_list v = Some l) (map (value_of vm) mapped) ls -> Forall (fun l => length l = n) ls -> i < n ->
    consistent (S d) (rev (combine (map pname mapped) (map (fun m => nth i m ONull) ls)) ++ vm) (at_ i rho) xs.
  Proof.
    intros d vm rho xs ls n i C mapped F FL Hi x Hx. pose proof (C x Hx) as Cx. unfold at_.
    destruct (get x) as [[p u]|] eqn:EG; [|rewrite Cx; auto]. rewrite Cx.
    assert (F' : Forall2 (fun v l => to_list (value_of vm v) = Some l) mapped ls).
    { clear - F. revert ls F. induction mapped; intros ls F; inversion F; subst; constructor; auto. }
    assert (ENT : forall y w, In (y, w) (rev (combine (map pname mapped) (map (fun m => nth i m ONull) ls))) <->
                  exists v l, In (v, l) (combine mapped ls) /\ y = pname v /\ w = nth i l ONull).
    { intros y w. rewrite <- in_rev. rewrite combine_map, in_map_iff. split.
      - intros [[v l] [E HI]]. inversion E; subst. eauto.
      - intros [v [l [HI [-> ->]]]]. exists (v, l). auto. }
    destruct (p - d) as [|k] eqn:ED.
    - unfold value_of at 2. rewrite lookup_app_none.
      + replace (p - S d) with 0 by lia. reflexivity.
      + intros y w HI. apply ENT in HI. destruct HI as [v [l [HI [-> _]]]]. destruct (Forall2_combine_in _ _ _ F' _ _ HI) as [_ HM].
        unfold mapped in HM. apply filter_In in HM. destruct HM as [HP HD]. destruct v as [[y q] s]. apply in_pv in HP. destruct HP as [_ HG].
        unfold pname, pdepth in *. cbn [fst snd] in *. intros ->. rewrite HG in EG. injection EG as -> ->. apply Nat.ltb_lt in HD. lia.
    - assert (HM : In (x, p, u) mapped).
      { unfold mapped. apply filter_In. split; [apply in_pv; auto|]. unfold pdepth. cbn [fst snd]. apply Nat.ltb_lt. lia. }
      destruct (Forall2_in_l _ _ _ F' _ HM) as [l [HI HL]]. rewrite HL.
      assert (LL : length l = n). { rewrite Forall_forall in FL. apply FL. apply in_combine_r in HI. auto. }
      destruct (nth_error l i) as [w|] eqn:EN; [|apply nth_error_None in EN; lia].
      replace (p - S d) with k by lia. f_equal. f_equal. unfold value_of.
      rewrite (lookup_app_some _ _ _ w); [reflexivity| |].
      + exists (nth i l ONull). apply ENT. exists (x, p, u), l. auto.
      + intros w' HE. apply ENT in HE. destruct HE as [v [l' [HI' [EX ->]]]]. destruct (Forall2_combine_in _ _ _ F' _ _ HI') as [HL' HM'].
        unfold mapped in HM'. apply filter_In in HM'. destruct HM' as [HP _]. destruct v as [[y q] s]. unfold pname in EX. cbn [fst] in EX. subst y.
        apply in_pv in HP. destruct HP as [_ HG]. rewrite HG in EG. injection EG as -> ->. rewrite HL' in HL. injection HL as ->.
        apply nth_error_nth. auto.
  Qed.

  (** * The whole translation *)
  Lemma insts_one : forall t rho ds, is_rep t = false -> insts rho t = Some ds -> exists d, ds = [d].
  Proof.
    intros t rho ds H E. destruct t; try discriminate; cbn [insts] in E.
    - injection E as <-. eauto.
    - destruct (rho x) as [[[|k] v]|]; try discriminate; injection E as <-; eauto.
    - destruct (oconcat _); [|discriminate]. destruct tl as [t|]; [|injection E as <-; eauto].
      destruct (insts rho t) as [[|r [|]]|]; try discriminate. injection E as <-; eauto.
    - destruct (oconcat _); [|discriminate]. injection E as <-; eauto.
  Qed.
  Definition right (t : tmpl) : Prop := forall d i0 i1 vs, pinstr d t = TOk i0 -> comp d i0 = TOk (i1, vs) ->
    vs = pv (ids t) /\ exists i, opt i1 = TOk i /\ is_append i = is_rep t /\
    forall vm rho, consistent d vm rho (ids t) -> shows vm i (insts rho t).
  Lemma consistent_app : forall d vm rho a b, consistent d vm rho (a ++ b) -> consistent d vm rho a /\ consistent d vm rho b.
  Proof. intros d vm rho a b H. split; intros x HI; apply H; apply in_or_app; auto. Qed.
  Lemma pv_app : forall a b, pv (a ++ b) = pv a ++ pv b.
  Proof. intros. unfold pv. apply flat_map_app. Qed.
  Lemma tmap_ok : forall {A B} (g : A -> tres B) x r ys, tmap g (x :: r) = TOk ys -> exists y ys', g x = TOk y /\ tmap g r = TOk ys' /\ ys = y :: ys'.
  Proof.
    intros A B g x r ys H. rewrite tmap_S in H. destruct (g x) as [y| | |]; try discriminate. cbn [tbind] in H.
    destruct (tmap g r) as [ys'| | |]; try discriminate. cbn [tbind] in H. injection H as <-. eauto.
  Qed.
  Lemma elems_right : forall es, Forall right es -> forall d is0 rs, tmap (pinstr d) es = TOk is0 -> tmap (comp d) is0 = TOk rs ->
    flat_map snd rs = pv (flat_map ids es) /\ length is0 = length es /\
    exists is, tmap opt (map fst rs) = TOk is /\ map is_append is = map is_rep es /\
    forall vm rho, consistent d vm rho (flat_map ids es) -> Forall2 (shows vm) is (map (insts rho) es).
  Proof.
    induction 1 as [|e es HR HF IH]; intros d is0 rs HP HC.
    - cbn in HP. injection HP as <-. cbn in HC. injection HC as <-. split; [reflexivity|]. split; [reflexivity|].
      exists []. split; [reflexivity|]. split; [reflexivity|]. constructor.
    - apply tmap_ok in HP. destruct HP as [i0 [is0' [P1 [P2 ->]]]]. apply tmap_ok in HC. destruct HC as [[i1 vs] [rs' [C1 [C2 ->]]]].
      destruct (HR _ _ _ _ P1 C1) as [V [i [O [A S]]]]. destruct (IH _ _ _ P2 C2) as [VS [L [is [OS [AS SS]]]]].
      cbn [flat_map map fst snd length]. rewrite pv_app, V, VS, L. split; auto. split; auto.
      exists (i :: is). rewrite tmap_S, O. cbn [tbind]. rewrite OS. split; [reflexivity|]. cbn [map]. split; [congruence|].
      intros vm rho C. apply consistent_app in C. destruct C as [Ca Cb]. constructor; auto.
  Qed.
  Lemma existsb_map_eq : forall {A B} (f : A -> bool) (g : B -> bool) l m, map f l = map g m -> existsb f l = existsb g m.
  Proof. induction l as [|a l IH]; intros [|b m] H; try discriminate; auto. cbn in H. injection H as H1 H2. cbn. rewrite H1, (IH _ H2). auto. Qed.
  Lemma tmap_length : forall {A B} (g : A -> tres B) l ys, tmap g l = TOk ys -> length ys = length l.
  Proof.
    induction l as [|a l IH]; intros ys H; [injection H as <-; auto|]. apply tmap_ok in H. destruct H as [y [ys' [_ [H ->]]]]. cbn. f_equal. auto.
  Qed.
  Lemma to_stx_list : forall L, to_stx (chain L ONull) = OSyntax (of_list (map to_stx L)) OFalse.
  Proof.
    intros [|x L]; [reflexivity|]. cbn [chain fold_right]. fold (chain L ONull). rewrite LibReadProofs.to_stx_pair. cbn [map of_list fold_right].
    f_equal. f_equal. induction L as [|y L IH]; [reflexivity|]. cbn [chain fold_right to_tail map of_list]. fold (chain L ONull). rewrite IH. reflexivity.
  Qed.
  Theorem all_right : forall t, tel t -> right t.
  Proof.
    assert (LEN : forall (A B : Type) (f : A -> bool) (g : B -> bool) l m, map f l = map g m -> length l = length m).
    { intros A B f g l m H. apply (f_equal (@length bool)) in H. rewrite !map_length in H. auto. }
    induction t using tmpl_ind_strong; intros K d' i0 i1 vs HP HC.
    - cbn in HP. injection HP as <-. cbn in HC. injection HC as <- <-. split; [reflexivity|]. eexists. split; [reflexivity|]. split; [reflexivity|].
      intros vm rho C. cbn [insts]. eexists. split; [reflexivity|]. cbn [is_append]. rewrite (proj1 (strip_to_stx d)).
      inversion K as [t' K' E|t' K' E]; subst. inversion K' as [? L| | |]; subst. destruct d; try discriminate; reflexivity.
    - cbn [pinstr] in HP. cbn [ids] in *. unfold pv. cbn [flat_map]. destruct (get x) as [[p v]|] eqn:EG.
      + destruct (d' <? p) eqn:E; [discriminate|]. injection HP as <-. cbn in HC. injection HC as <- <-. split; [reflexivity|].
        eexists. split; [reflexivity|]. split; [reflexivity|]. intros vm rho C. specialize (C x (or_introl eq_refl)). rewrite EG in C.
        cbn [insts]. rewrite C. apply Nat.ltb_ge in E. replace (p - d') with 0 by lia. eexists. split; reflexivity.
      + injection HP as <-. cbn in HC. injection HC as <- <-. split; [reflexivity|]. eexists. split; [reflexivity|]. split; [reflexivity|].
        intros vm rho C. specialize (C x (or_introl eq_refl)). rewrite EG in C. cbn [insts]. rewrite C. eexists. split; reflexivity.
    - assert (K' : tok t) by (inversion K as [? K' E|]; subst; [inversion K'|auto]).
      cbn [pinstr] in HP. destruct (pinstr (S d') t) as [j0| | |] eqn:EP; try discriminate. injection HP as <-.
      cbn [comp] in HC. destruct (comp (S d') j0) as [[inner ws]| | |] eqn:EC; try discriminate. cbn [tbind] in HC.
      destruct ws as [|w0 ws0]; [discriminate|]. remember (w0 :: ws0) as ws in *. clear Heqws. destruct (existsb _ ws); [|discriminate]. injection HC as <- <-.
      destruct (IHt (TelOne _ K') _ _ _ _ EP EC) as [V [i [O [A S]]]]. rewrite V. cbn [ids]. split; [reflexivity|].
      cbn [opt]. rewrite O. cbn [tbind]. eexists. split; [reflexivity|]. split; [reflexivity|].
      intros vm rho C. cbn [insts]. rewrite repetitions_reps. rewrite <- (mapped_values _ _ _ _ C).
      set (mapped := filter (fun v => d' <? pdepth v) (pv (ids t))) in *.
      pose proof (map_rows_spec (map (value_of vm) mapped)) as MR. destruct (reps (map (value_of vm) mapped)) as [n|].
      2:{ unfold shows. cbn [build]. rewrite MR. reflexivity. }
      destruct MR as [ls [F [FL MR]]].
      assert (ROWS : forall is, (forall k, In k is -> k < n) ->
        match oconcat (map (fun i => insts (at_ i rho) t) is) with
        | Some ds => exists l, tmap (fun row => build (rev (combine (map pname mapped) row) ++ vm) i)
                                 (map (fun i => map (fun m => nth i m ONull) ls) is) = TOk l /\ map strip l = ds
        | None => tmap (fun row => build (rev (combine (map pname mapped) row) ++ vm) i)
                       (map (fun i => map (fun m => nth i m ONull) ls) is) = TErr
        end).
      { induction is as [|k is IHis]; intros HK; [exists []; auto|]. cbn [map oconcat]. rewrite tmap_S.
        specialize (IHis (fun k' HI => HK k' (or_intror HI))).
        assert (CS := step_consistent d' vm rho (ids t) ls n k C F FL (HK k (or_introl eq_refl))). fold mapped in CS.
        specialize (S _ _ CS). pose proof (insts_one t (at_ k rho)) as ONE. destruct (insts (at_ k rho) t) as [ds|].
        - destruct (ONE ds (tok_not_rep _ K') eq_refl) as [dd ->]. destruct S as [v [HB HV]]. rewrite A, (tok_not_rep _ K') in HV. injection HV as ->.
          rewrite HB. cbn [tbind]. destruct (oconcat (map (fun i => insts (at_ i rho) t) is)) as [ds'|].
          + destruct IHis as [l [T M]]. rewrite T. exists (v :: l). split; [reflexivity|]. cbn. congruence.
          + rewrite IHis. reflexivity.
        - cbn in S. rewrite S. reflexivity. }
      specialize (ROWS (seq 0 n) ltac:(intros k HI; apply in_seq in HI; lia)).
      destruct (oconcat _) as [ds|].
      + destruct ROWS as [l [T M]]. unfold shows. cbn [build is_append]. rewrite MR, T. cbn [tbind]. eexists. split; [reflexivity|]. eauto.
      + unfold shows. cbn [build]. rewrite MR, ROWS. reflexivity.
    - assert (K' : tok (TList es tl)) by (inversion K as [? K' E|]; subst; auto). clear K.
      inversion K' as [| |? ? NE HT HTL|]; subst.
      assert (HR : Forall right es). { rewrite Forall_forall in *. intros e HI. apply H; auto. }
      cbn [pinstr] in HP. destruct (tmap (pinstr d') es) as [is0| | |] eqn:EP; try discriminate. cbn [tbind] in HP.
      assert (LP := tmap_length _ _ _ EP).
      destruct tl as [t|].
      + destruct (pinstr d' t) as [it0| | |] eqn:EPT; try discriminate. injection HP as <-. destruct (HTL t eq_refl) as [KT [_ NR]].
        cbn [comp] in HC.
        assert (TA : forall a b, tmap (comp d') (a ++ b) = tbind (tmap (comp d') a) (fun x => tbind (tmap (comp d') b) (fun y => TOk (x ++ y)))).
        { induction a as [|x a IHa]; intros b; [cbn; destruct (tmap (comp d') b); reflexivity|]. cbn [app]. rewrite !tmap_S. rewrite IHa.
          destruct (comp d' x); try reflexivity. cbn [tbind]. destruct (tmap (comp d') a); try reflexivity. cbn [tbind].
          destruct (tmap (comp d') b); reflexivity. }
        unfold ptlist in HC. cbn [comp] in HC. rewrite TA in HC. destruct (tmap (comp d') is0) as [rs| | |] eqn:EC; try discriminate. cbn [tbind] in HC.
        rewrite tmap_S in HC. destruct (comp d' it0) as [[it1 tvs]| | |] eqn:ECT; try discriminate. cbn [tbind tmap] in HC. injection HC as <- <-.
        destruct (elems_right es HR _ _ _ EP EC) as [V [L [is [O [A S]]]]].
        destruct (H0 t eq_refl (TelOne _ KT) _ _ _ _ EPT ECT) as [VT [it [OT [AT ST]]]].
        split. { cbn [ids]. rewrite flat_map_app, pv_app, V. f_equal. cbn. rewrite app_nil_r. auto. }
        assert (TB : forall a b, tmap opt (a ++ b) = tbind (tmap opt a) (fun x => tbind (tmap opt b) (fun y => TOk (x ++ y)))).
        { induction a as [|x a IHa]; intros b; [cbn; destruct (tmap opt b); reflexivity|]. cbn [app]. rewrite !tmap_S. rewrite IHa.
          destruct (opt x); try reflexivity. cbn [tbind]. destruct (tmap opt a); try reflexivity. cbn [tbind].
          destruct (tmap opt b); reflexivity. }
        cbn [opt]. rewrite map_app, TB, O. cbn [map fst]. rewrite tmap_S, OT. cbn [tbind tmap].
        assert (LI : length is0 = length is) by (rewrite L; symmetry; eapply LEN; exact A).
        destruct (subst_builds is (Some it)) as [i [OS [NA B]]].
        { intros _. rewrite (existsb_map_eq _ _ _ _ A). auto. }
        { intros it' E. injection E as <-. rewrite AT. apply tok_not_rep; auto. }
        cbn [has sfx] in OS. rewrite <- LI in OS. exists i. split; [exact OS|]. split; [rewrite NA; reflexivity|].
        intros vm rho C. cbn [ids] in C. apply consistent_app in C. destruct C as [Ca Cb].
        pose proof (insts_one t rho) as ONE. specialize (ST _ _ Cb).
        specialize (B vm (map (insts rho) es) (match insts rho t with Some [r] => Some r | _ => None end) (S _ _ Ca)).
        cbn [insts]. destruct (insts rho t) as [ds|].
        * destruct (ONE ds (tok_not_rep _ KT) eq_refl) as [r ->]. specialize (B ST). destruct (oconcat (map (insts rho) es)) as [ds|].
          -- destruct B as [Lx [tt [HB [HM [HS _]]]]]. unfold shows. rewrite HB, NA. eexists. split; [reflexivity|].
             rewrite (proj1 (strip_to_stx _)), strip_chain. congruence.
          -- unfold shows. auto.
        * specialize (B ST). destruct (oconcat (map (insts rho) es)); unfold shows; auto.
      + injection HP as <-. unfold plist in HC. cbn [comp] in HC. destruct (tmap (comp d') is0) as [rs| | |] eqn:EC; try discriminate. cbn [tbind] in HC.
        injection HC as <- <-. destruct (elems_right es HR _ _ _ EP EC) as [V [L [is [O [A S]]]]].
        split. { cbn [ids]. rewrite app_nil_r. auto. }
        cbn [opt]. rewrite O. cbn [tbind].
        assert (LI : length is0 = length is) by (rewrite L; symmetry; eapply LEN; exact A).
        destruct (subst_builds is None) as [i [OS [NA B]]]; [discriminate|discriminate|].
        cbn [has sfx] in OS. rewrite app_nil_r in OS. rewrite <- LI in OS. exists i. split; [exact OS|]. split; [rewrite NA; reflexivity|].
        intros vm rho C. cbn [ids] in C. rewrite app_nil_r in C. specialize (B vm _ (Some ONull) (S _ _ C) eq_refl).
        cbn [insts]. destruct (oconcat (map (insts rho) es)) as [ds|].
        * destruct B as [Lx [tt [HB [HM [HS HN]]]]]. unfold shows. rewrite HB, NA. eexists. split; [reflexivity|].
          rewrite (proj1 (strip_to_stx _)), strip_chain. congruence.
        * unfold shows. auto.
    - assert (K' : tok (TVec es)) by (inversion K as [? K' E|]; subst; auto). clear K. inversion K' as [| | |? HT]; subst.
      assert (HR : Forall right es). { rewrite Forall_forall in *. intros e HI. apply H; auto. }
      cbn [pinstr] in HP. destruct es as [|e es].
      + injection HP as <-. cbn in HC. injection HC as <- <-. split; [reflexivity|]. eexists. split; [reflexivity|]. split; [reflexivity|].
        intros vm rho _. cbn. eexists. split; reflexivity.
      + set (es0 := e :: es) in *.
        destruct (tmap (pinstr d') es0) as [is0| | |] eqn:EP; try discriminate. cbn [tbind] in HP.
        injection HP as <-. unfold plist in HC. cbn [comp] in HC. destruct (tmap (comp d') is0) as [rs| | |] eqn:EC; try discriminate. cbn [tbind] in HC.
        injection HC as <- <-. destruct (elems_right es0 HR _ _ _ EP EC) as [V [L [is [O [A S]]]]].
        split. { exact V. }
        cbn [fst opt]. rewrite O. cbn [tbind].
        assert (LI : length is0 = length is) by (rewrite L; symmetry; eapply LEN; exact A).
        destruct (subst_builds is None) as [i [OS [NA B]]]; [discriminate|discriminate|].
        cbn [has sfx] in OS. rewrite app_nil_r in OS. rewrite <- LI in OS. rewrite OS. cbn [tbind]. eexists. split; [reflexivity|]. split; [reflexivity|].
        intros vm rho C. specialize (B vm _ (Some ONull) (S _ _ C) eq_refl).
        cbn [insts]. destruct (oconcat (map (insts rho) es0)) as [ds|].
        * destruct B as [Lx [tt [HB [HM [HS HN]]]]]. rewrite (HN eq_refl) in HB. rewrite to_stx_list in HB.
          unfold shows. cbn [build]. rewrite HB. cbn [tbind template_vector]. rewrite to_list_of_list. eexists. split; [reflexivity|].
          cbn [is_append]. rewrite (proj1 (strip_to_stx _)). cbn [strip]. f_equal. f_equal. rewrite map_map.
          transitivity (map strip Lx); [congruence|]. apply map_ext. intros a. rewrite (proj1 (strip_to_stx a)). auto.
        * unfold shows. cbn [build]. rewrite B. reflexivity.
  Qed.

  (** * Which templates are refused *)
  (** every variable is under at least as many ellipses as in its pattern *)
  Fixpoint enough (d : nat) (t : tmpl) : Prop :=
    match t with
    | TConst _ => True
    | TId x => match get x with Some (p, _) => p <= d | None => True end
    | TRep t => enough (S d) t
    | TList es tl => fold_right (fun e P => enough d e /\ P) (match tl with Some t => enough d t | None => True end) es
    | TVec es => fold_right (fun e P => enough d e /\ P) True es
    end.
  (** every ellipsis follows something with a variable *)
  Fixpoint filled (t : tmpl) : Prop :=
    match t with
    | TConst _ | TId _ => True
    | TRep t => (exists x, In x (ids t) /\ get x <> None) /\ filled t
    | TList es tl => fold_right (fun e P => filled e /\ P) (match tl with Some t => filled t | None => True end) es
    | TVec es => fold_right (fun e P => filled e /\ P) True es
    end.
  (** every ellipsis follows something with a variable that has to be under it *)
  Fixpoint driven (d : nat) (t : tmpl) : Prop :=
    match t with
    | TConst _ | TId _ => True
    | TRep t => (exists x p v, In x (ids t) /\ get x = Some (p, v) /\ d < p) /\ driven (S d) t
    | TList es tl => fold_right (fun e P => driven d e /\ P) (match tl with Some t => driven d t | None => True end) es
    | TVec es => fold_right (fun e P => driven d e /\ P) True es
    end.
  Lemma fold_and : forall {A} (Q : A -> Prop) R l, fold_right (fun e P => Q e /\ P) R l <-> Forall Q l /\ R.
  Proof.
    induction l as [|x l IH]; cbn; [intuition|]. rewrite IH. split; [intros [A1 [B C]]; auto|intros [A1 C]; inversion A1; auto].
  Qed.
  Lemma enough_parsed : forall t d i, pinstr d t = TOk i -> enough d t.
  Proof.
    induction t using tmpl_ind_strong; intros d0 i HP; cbn [enough pinstr] in *; auto.
    - destruct (get x) as [[p v]|]; auto. destruct (d0 <? p) eqn:E; [discriminate|]. apply Nat.ltb_ge in E. auto.
    - destruct (pinstr (S d0) t) eqn:E; try discriminate. eauto.
    - destruct (tmap (pinstr d0) es) as [is| | |] eqn:E; try discriminate. apply fold_and. split.
      + clear HP. revert is E. induction H as [|e es He Hes IH]; intros is E; constructor.
        * apply tmap_ok in E. destruct E as [y [ys [E1 _]]]. eauto.
        * apply tmap_ok in E. destruct E as [y [ys [_ [E1 _]]]]. eapply IH; eauto.
      + destruct tl as [t|]; auto. cbn [tbind] in HP. destruct (pinstr d0 t) eqn:E2; try discriminate. eapply H0; eauto.
    - apply fold_and. split; auto. destruct es as [|e es]; auto. destruct (tmap (pinstr d0) (e :: es)) as [is| | |] eqn:E; try discriminate.
      clear HP. revert is E. induction H as [|e' es' He Hes IH]; intros is E; constructor.
      * apply tmap_ok in E. destruct E as [y [ys [E1 _]]]. eauto.
      * apply tmap_ok in E. destruct E as [y [ys [_ [E1 _]]]]. eapply IH; eauto.
  Qed.
  Lemma parsed_enough : forall t d, enough d t -> exists i, pinstr d t = TOk i.
  Proof.
    assert (G : forall es d, Forall (fun t => forall d, enough d t -> exists i, pinstr d t = TOk i) es -> Forall (enough d) es ->
      exists is, tmap (pinstr d) es = TOk is).
    { intros es d H HE. induction H as [|e es He Hes IH]; [exists []; auto|]. inversion HE; subst. destruct (He d) as [i Ei]; auto.
      destruct IH as [is Eis]; auto. exists (i :: is). rewrite tmap_S, Ei. cbn [tbind]. rewrite Eis. auto. }
    induction t using tmpl_ind_strong; intros d0 HE; cbn [enough pinstr] in *; eauto.
    - destruct (get x) as [[p v]|]; eauto. apply Nat.ltb_ge in HE. rewrite HE. eauto.
    - destruct (IHt _ HE) as [i E]. rewrite E. cbn. eauto.
    - apply fold_and in HE. destruct HE as [A B]. destruct (G es d0 H A) as [is E]. rewrite E. cbn [tbind]. destruct tl as [t|]; eauto.
      destruct (H0 t eq_refl _ B) as [i Ei]. rewrite Ei. cbn. eauto.
    - apply fold_and in HE. destruct HE as [A _]. destruct es as [|e es]; eauto. destruct (G _ d0 H A) as [is E]. rewrite E. cbn. eauto.
  Qed.
  Lemma comp_vars : forall t, tel t -> forall d i0 i1 vs, pinstr d t = TOk i0 -> comp d i0 = TOk (i1, vs) -> vs = pv (ids t).
  Proof. intros t K d i0 i1 vs HP HC. exact (proj1 (all_right t K d i0 i1 vs HP HC)). Qed.
  Lemma pv_ex : forall xs, pv xs <> [] <-> exists x, In x xs /\ get x <> None.
  Proof.
    intros xs. split.
    - intros H. destruct (pv xs) as [|[[y p] u] l] eqn:E; [congruence|]. assert (HI : In (y, p, u) (pv xs)) by (rewrite E; left; auto).
      apply in_pv in HI. destruct HI as [A B]. exists y. split; auto. congruence.
    - intros [x [HI HG]] E. destruct (get x) as [[p u]|] eqn:EG; [|congruence].
      assert (HJ : In (x, p, u) (pv xs)) by (apply in_pv; auto). rewrite E in HJ. destruct HJ.
  Qed.
  Lemma comp_list : forall d is rs, tmap (comp d) is = TOk rs -> Forall2 (fun i r => comp d i = TOk r) is rs.
  Proof.
    induction is as [|i is IH]; intros rs H; [injection H as <-; constructor|]. apply tmap_ok in H. destruct H as [y [ys [A [B ->]]]]. constructor; auto.
  Qed.
  Lemma parse_list : forall d es is, tmap (pinstr d) es = TOk is -> Forall2 (fun e i => pinstr d e = TOk i) es is.
  Proof.
    induction es as [|i es IH]; intros rs H; [injection H as <-; constructor|]. apply tmap_ok in H. destruct H as [y [ys [A [B ->]]]]. constructor; auto.
  Qed.
  Lemma filled_lists : forall d es is rs, Forall (fun t => tel t -> forall d i0 r, pinstr d t = TOk i0 -> comp d i0 = TOk r -> filled t) es ->
    Forall tel es -> Forall2 (fun e i => pinstr d e = TOk i) es is -> Forall2 (fun i r => comp d i = TOk r) is rs -> Forall filled es.
  Proof.
    intros d es is rs H HT HP. revert rs. induction HP as [|e i es is E HP IH]; intros rs HC; constructor.
    - inversion H; subst. inversion HT; subst. inversion HC; subst. eauto.
    - inversion H; subst. inversion HT; subst. inversion HC; subst. eauto.
  Qed.
  Lemma filled_comp : forall t, tel t -> forall d i0 r, pinstr d t = TOk i0 -> comp d i0 = TOk r -> filled t.
  Proof.
    induction t using tmpl_ind_strong; intros K d' i0 r HP HC; cbn [filled]; auto.
    - assert (K' : tok t) by (inversion K as [? K' E|]; subst; [inversion K'|auto]).
      cbn [pinstr] in HP. destruct (pinstr (S d') t) as [j0| | |] eqn:EP; try discriminate. injection HP as <-.
      cbn [comp] in HC. destruct (comp (S d') j0) as [[inner ws]| | |] eqn:EC; try discriminate. cbn [tbind] in HC.
      split; [|eapply IHt; eauto; constructor; auto]. apply pv_ex. pose proof (comp_vars t (TelOne _ K') _ _ _ _ EP EC) as V.
      destruct ws; [discriminate|]. congruence.
    - assert (K' : tok (TList es tl)) by (inversion K as [? K' E|]; subst; auto). clear K. inversion K' as [| |? ? NE HT HTL|]; subst.
      cbn [pinstr] in HP. destruct (tmap (pinstr d') es) as [is0| | |] eqn:EP; try discriminate. cbn [tbind] in HP. apply parse_list in EP.
      apply fold_and. destruct tl as [t|].
      + destruct (pinstr d' t) as [it0| | |] eqn:EPT; try discriminate. injection HP as <-. destruct (HTL t eq_refl) as [KT _].
        unfold ptlist in HC. cbn [comp] in HC. destruct (tmap (comp d') (is0 ++ [it0])) as [rs| | |] eqn:EC; try discriminate.
        apply comp_list in EC. apply Forall2_app_inv_l in EC. destruct EC as [r1 [r2 [C1 [C2 _]]]]. inversion C2; subst.
        split; [eapply filled_lists; eauto|]. eapply H0; eauto. constructor; auto.
      + injection HP as <-. unfold plist in HC. cbn [comp] in HC. destruct (tmap (comp d') is0) as [rs| | |] eqn:EC; try discriminate.
        apply comp_list in EC. split; auto. eapply filled_lists; eauto.
    - assert (K' : tok (TVec es)) by (inversion K as [? K' E|]; subst; auto). clear K. inversion K' as [| | |? HT]; subst.
      apply fold_and. split; auto. destruct es as [|e es]; [constructor|]. cbn [pinstr] in HP. set (es0 := e :: es) in *.
      destruct (tmap (pinstr d') es0) as [is0| | |] eqn:EP; try discriminate. cbn [tbind] in HP. apply parse_list in EP.
      injection HP as <-. unfold plist in HC. cbn [comp] in HC. destruct (tmap (comp d') is0) as [rs| | |] eqn:EC; try discriminate.
      apply comp_list in EC. eapply filled_lists; eauto.
  Qed.
  Lemma comp_lists : forall d es is, Forall (fun t => tel t -> forall d i0, driven d t -> pinstr d t = TOk i0 -> exists r, comp d i0 = TOk r) es ->
    Forall tel es -> Forall (driven d) es -> Forall2 (fun e i => pinstr d e = TOk i) es is -> exists rs, tmap (comp d) is = TOk rs.
  Proof.
    intros d es is H HT HD HP. induction HP as [|e i es is E HP IH]; [exists []; reflexivity|].
    inversion H; subst. inversion HT; subst. inversion HD; subst. destruct (H2 H4 d i) as [r R]; auto. destruct IH as [rs RS]; auto.
    exists (r :: rs). rewrite tmap_S, R. cbn [tbind]. rewrite RS. reflexivity.
  Qed.
  Lemma driven_comp : forall t, tel t -> forall d i0, driven d t -> pinstr d t = TOk i0 -> exists r, comp d i0 = TOk r.
  Proof.
    induction t using tmpl_ind_strong; intros K d' i0 HD HP.
    - cbn in HP. injection HP as <-. cbn. eauto.
    - cbn [pinstr] in HP. destruct (get x) as [[p v]|]; [destruct (d' <? p); [discriminate|]|]; injection HP as <-; cbn; eauto.
    - assert (K' : tok t) by (inversion K as [? K' E|]; subst; [inversion K'|auto]).
      cbn [pinstr] in HP. destruct (pinstr (S d') t) as [j0| | |] eqn:EP; try discriminate. injection HP as <-.
      cbn [driven] in HD. destruct HD as [[x [p [v [HX [HG HL]]]]] HD]. destruct (IHt (TelOne _ K') _ _ HD EP) as [[inner ws] R].
      cbn [comp]. rewrite R. cbn [tbind]. pose proof (comp_vars t (TelOne _ K') _ _ _ _ EP R) as V.
      assert (HI : In (x, p, v) ws) by (rewrite V; apply in_pv; auto).
      destruct ws as [|w0 ws0]; [destruct HI|]. remember (w0 :: ws0) as ws. clear Heqws.
      replace (existsb (fun v0 => d' <=? pdepth v0) ws) with true; [eauto|]. symmetry. apply existsb_exists. exists (x, p, v). split; auto.
      apply Nat.leb_le. unfold pdepth. cbn. lia.
    - assert (K' : tok (TList es tl)) by (inversion K as [? K' E|]; subst; auto). clear K. inversion K' as [| |? ? NE HT HTL|]; subst.
      cbn [pinstr] in HP. destruct (tmap (pinstr d') es) as [is0| | |] eqn:EP; try discriminate. cbn [tbind] in HP. apply parse_list in EP.
      cbn [driven] in HD. apply fold_and in HD. destruct HD as [HD HDT]. destruct (comp_lists _ _ _ H HT HD EP) as [rs RS]. destruct tl as [t|].
      + destruct (pinstr d' t) as [it0| | |] eqn:EPT; try discriminate. injection HP as <-. destruct (HTL t eq_refl) as [KT _].
        destruct (H0 t eq_refl (TelOne _ KT) _ _ HDT EPT) as [r R].
        unfold ptlist. cbn [comp].
        assert (TA : forall a b, tmap (comp d') (a ++ b) = tbind (tmap (comp d') a) (fun x => tbind (tmap (comp d') b) (fun y => TOk (x ++ y)))).
        { induction a as [|x a IHa]; intros b; [cbn; destruct (tmap (comp d') b); reflexivity|]. cbn [app]. rewrite !tmap_S. rewrite IHa.
          destruct (comp d' x); try reflexivity. cbn [tbind]. destruct (tmap (comp d') a); try reflexivity. cbn [tbind].
          destruct (tmap (comp d') b); reflexivity. }
        rewrite TA, RS. cbn [tbind]. rewrite tmap_S, R. cbn. eauto.
      + injection HP as <-. unfold plist. cbn [comp]. rewrite RS. cbn. eauto.
    - assert (K' : tok (TVec es)) by (inversion K as [? K' E|]; subst; auto). clear K. inversion K' as [| | |? HT]; subst.
      cbn [driven] in HD. apply fold_and in HD. destruct HD as [HD _]. destruct es as [|e es]; [cbn in HP; injection HP as <-; cbn; eauto|].
      cbn [pinstr] in HP. set (es0 := e :: es) in *.
      destruct (tmap (pinstr d') es0) as [is0| | |] eqn:EP; try discriminate. cbn [tbind] in HP. apply parse_list in EP.
      injection HP as <-. unfold plist. cbn [comp]. destruct (comp_lists _ _ _ H HT HD EP) as [rs RS]. rewrite RS. cbn. eauto.
  Qed.

  (** * The form *)
  Lemma consistent_top : forall xs, consistent 0 [] get xs.
  Proof. intros xs x _. destruct (get x) as [[p v]|]; auto. rewrite Nat.sub_0_r. reflexivity. Qed.
  Theorem template_spec : forall t f, tok t -> tsize t <= f ->
    match template get f (tobj t) with
    | TOk v => inst get t = Some (strip v)
    | TErr => inst get t = None
    | TBad => ~ (enough 0 t /\ driven 0 t)
    | TFuel => False
    end /\ (template get f (tobj t) <> TBad -> enough 0 t /\ filled t).
  Proof.
    intros t f K Hf. unfold template. rewrite tparse_spec by auto.
    assert (PB : forall t d, (exists i, pinstr d t = TOk i) \/ pinstr d t = TBad).
    { clear. assert (G : forall es d, Forall (fun t => forall d, (exists i, pinstr d t = TOk i) \/ pinstr d t = TBad) es ->
        (exists is, tmap (pinstr d) es = TOk is) \/ tmap (pinstr d) es = TBad).
      { intros es d H. induction H as [|e es He Hes IH]; [left; exists []; auto|]. rewrite tmap_S. destruct (He d) as [[i E]|E]; rewrite E; [|right; auto].
        cbn [tbind]. destruct IH as [[is E2]|E2]; rewrite E2; cbn; eauto. }
      induction t using tmpl_ind_strong; intros d0; cbn [pinstr]; eauto.
      - destruct (get x) as [[p v]|]; eauto. destruct (d0 <? p); eauto.
      - destruct (IHt (S d0)) as [[i E]|E]; rewrite E; cbn; eauto.
      - destruct (G es d0 H) as [[is E]|E]; rewrite E; cbn [tbind]; eauto. destruct tl as [t|]; eauto.
        destruct (H0 t eq_refl d0) as [[i E2]|E2]; rewrite E2; cbn; eauto.
      - destruct es as [|e es]; eauto. destruct (G _ d0 H) as [[is E]|E]; rewrite E; cbn [tbind]; eauto. }
    assert (CB : forall i d, (exists r, comp d i = TOk r) \/ comp d i = TBad).
    { clear. fix IH 1. intros i d. destruct i as [form ops ins|i|m c i|dd|v]; cbn [comp]; eauto.
      - assert (G : (exists rs, tmap (comp d) ins = TOk rs) \/ tmap (comp d) ins = TBad).
        { induction ins as [|i ins IHi]; [left; exists []; auto|]. rewrite tmap_S. destruct (IH i d) as [[r E]|E]; rewrite E; [|right; auto].
          cbn [tbind]. destruct IHi as [[rs E2]|E2]; rewrite E2; cbn; eauto. }
        destruct G as [[rs E]|E]; rewrite E; cbn; eauto.
      - destruct (IH i d) as [[r E]|E]; rewrite E; cbn; eauto.
      - destruct (IH i (S d)) as [[[inner vs] E]|E]; rewrite E; cbn [tbind]; eauto. destruct vs; eauto. destruct (existsb _ _); eauto. }
    destruct (PB t 0) as [[i0 EP]|EP]; rewrite EP; cbn [tbind].
    2:{ split; [intros [A _]; destruct (parsed_enough _ _ A); congruence|congruence]. }
    destruct (CB i0 0) as [[[i1 vs] EC]|EC]; rewrite EC; cbn [tbind].
    2:{ split; [intros [_ A]; destruct (driven_comp t (TelOne _ K) _ _ A EP); congruence|congruence]. }
    destruct (all_right t (TelOne _ K) _ _ _ _ EP EC) as [_ [i [O [A S]]]]. cbn [fst]. rewrite O. cbn [tbind].
    specialize (S [] get (consistent_top _)). unfold inst. pose proof (insts_one t get) as ONE. unfold shows in S.
    rewrite A, (tok_not_rep _ K) in S.
    assert (EF : enough 0 t /\ filled t) by (split; [eapply enough_parsed; eauto|eapply filled_comp; eauto; constructor; auto]).
    destruct (insts get t) as [ds|].
    - destruct S as [v [HB ->]]. rewrite HB. auto.
    - rewrite S. auto.
  Qed.
End P.

(** * Using a pattern as a template *)
(** The template with the text of a pattern. *)
Fixpoint as_tmpl (p : pat) : tmpl :=
  match p with
  | PWild => TId (s2b "_")
  | PVar x => TId x
  | PLit (OSym x) => TId x
  | PLit d => TConst d
  | PList [] None => TConst ONull
  | PList ps tl => TList (map as_tmpl ps) (match tl with Some t => Some (as_tmpl t) | None => None end)
  | PEll ps p qs tl => TList (map as_tmpl ps ++ TRep (as_tmpl p) :: map as_tmpl qs) (match tl with Some t => Some (as_tmpl t) | None => None end)
  | PVec ps => TVec (map as_tmpl ps)
  | PVecEll ps p qs => TVec (map as_tmpl ps ++ TRep (as_tmpl p) :: map as_tmpl qs)
  end.
(** Patterns that keep everything: no wildcards, a variable under every ellipsis, no
    tail after an ellipsis. *)
Inductive keeps : pat -> Prop :=
| KeVar : forall x, keeps (PVar x)
| KeLit : forall d, strip d = d -> keeps (PLit d)
| KeList : forall ps tl, Forall keeps ps -> (forall t, tl = Some t -> keeps t) -> keeps (PList ps tl)
| KeEll : forall ps p qs, Forall keeps ps -> keeps p -> vars 0 p <> [] -> Forall keeps qs -> keeps (PEll ps p qs None)
| KeVec : forall ps, Forall keeps ps -> keeps (PVec ps)
| KeVecEll : forall ps p qs, Forall keeps ps -> keeps p -> vars 0 p <> [] -> Forall keeps qs -> keeps (PVecEll ps p qs).
(** The environment that the bindings of a match make. *)
Definition env_of (p : pat) (bs : list obj) : env := fun x =>
  match find (fun e => match fst (fst e) with OSym y => if list_eq_dec ascii_dec y x then true else false | _ => false end)
             (combine (vars 0 p) bs) with
  | Some e => Some (snd (fst e), snd e)
  | None => None
  end.

(** literal symbols of a pattern *)
Fixpoint lsyms (p : pat) : list (list byte) :=
  let tail t := match t with Some t => lsyms t | None => [] end in
  match p with
  | PWild | PVar _ => []
  | PLit (OSym x) => [x]
  | PLit _ => []
  | PList ps tl => flat_map lsyms ps ++ tail tl
  | PEll ps p qs tl => flat_map lsyms ps ++ lsyms p ++ flat_map lsyms qs ++ tail tl
  | PVec ps => flat_map lsyms ps
  | PVecEll ps p qs => flat_map lsyms ps ++ lsyms p ++ flat_map lsyms qs
  end.
Definition binds (rho : env) (v : obj * nat) (b : obj) : Prop := exists x, fst v = OSym x /\ rho x = Some (snd v, b).
Definition frees (rho : env) (xs : list (list byte)) : Prop := forall x, In x xs -> rho x = None.
Lemma frees_app : forall rho a b, frees rho (a ++ b) -> frees rho a /\ frees rho b.
Proof. intros rho a b H. split; intros x HI; apply H; apply in_or_app; auto. Qed.
Lemma frees_at : forall rho i xs, frees rho xs -> frees (at_ i rho) xs.
Proof. intros rho i xs H x HI. unfold at_. rewrite (H x HI). auto. Qed.
Lemma Forall2_len : forall {A B} (R : A -> B -> Prop) l m, Forall2 R l m -> length l = length m.
Proof. induction 1; cbn; auto. Qed.
Lemma Forall2_split : forall {A B} (R : A -> B -> Prop) a b c d, Forall2 R (a ++ b) (c ++ d) -> length a = length c -> Forall2 R a c /\ Forall2 R b d.
Proof.
  induction a as [|x a IH]; intros b [|y c] d H L; try discriminate; cbn in *; [split; auto|].
  inversion H; subst. destruct (IH _ _ _ H5) as [P Q]; [injection L; auto|]. split; auto.
Qed.
Lemma oconcat_app : forall a b, oconcat (a ++ b) = match oconcat a, oconcat b with Some x, Some y => Some (x ++ y) | _, _ => None end.
Proof.
  induction a as [|o a IH]; intros b; cbn [app oconcat]; [destruct (oconcat b); auto|]. rewrite IH. destruct o; auto.
  destruct (oconcat a); auto. destruct (oconcat b); auto. rewrite app_assoc. auto.
Qed.
Lemma spine_strip : forall e es rest, spine e es rest -> strip e = chain (map strip es) (strip rest).
Proof. induction 1; cbn; auto; rewrite IHspine; auto. Qed.

(** the identifiers of the template are the variables and the literal symbols *)
Lemma ids_of : forall p, keeps p -> forall y, In y (ids (as_tmpl p)) -> In (OSym y) (map fst (vars 0 p)) \/ In y (lsyms p).
Proof.
  assert (L : forall ps, Forall (fun p => keeps p -> forall y, In y (ids (as_tmpl p)) -> In (OSym y) (map fst (vars 0 p)) \/ In y (lsyms p)) ps ->
    Forall keeps ps -> forall y, In y (flat_map ids (map as_tmpl ps)) -> In (OSym y) (map fst (flat_map (vars 0) ps)) \/ In y (flat_map lsyms ps)).
  { intros ps H HK y. induction H as [|p ps Hp Hps IH]; cbn; auto. inversion HK; subst. rewrite map_app, !in_app_iff.
    intros [HI|HI]; [destruct (Hp H1 y HI); auto|destruct (IH H2 HI); auto]. }
  assert (VS : forall p, map fst (vars 1 p) = map fst (vars 0 p)) by (intros p; rewrite vars_shift, map_map; reflexivity).
  intros p. induction p using pat_ind_strong; intros K y HI.
  - inversion K.
  - cbn in *. intuition congruence.
  - destruct d; cbn in *; auto; try tauto.
  - inversion K as [| |? ? K1 K2| | |]; subst. cbn [vars lsyms]. rewrite map_app, !in_app_iff.
    assert (HI' : In y (flat_map ids (map as_tmpl ps)) \/ exists t, tl = Some t /\ In y (ids (as_tmpl t))).
    { destruct ps as [|p0 ps]; [destruct tl|]; cbn [as_tmpl ids] in HI.
      - cbn in HI. right. eauto.
      - destruct HI.
      - apply in_app_iff in HI. destruct HI as [HI|HI]; auto. destruct tl; [|destruct HI]. right; eauto. }
    destruct HI' as [HI'|[t [-> HI']]].
    + destruct (L _ H K1 _ HI'); auto.
    + destruct (H0 t eq_refl (K2 t eq_refl) y HI'); auto.
  - inversion K as [| | |? ? ? K1 K2 K3 K4| |]; subst.
    cbn [vars lsyms as_tmpl ids] in *. rewrite app_nil_r in HI. rewrite !map_app, VS, !in_app_iff. rewrite flat_map_app in HI. cbn [flat_map] in HI.
    rewrite !in_app_iff in HI. destruct HI as [HI|[HI|HI]].
    + destruct (L _ H K1 _ HI); auto.
    + destruct (IHp K2 _ HI); auto.
    + destruct (L _ H0 K4 _ HI); auto 6.
  - inversion K; subst. cbn [vars lsyms as_tmpl ids] in *. apply L; auto.
  - inversion K as [| | | | |? ? ? K1 K2 K3 K4]; subst.
    cbn [vars lsyms as_tmpl ids] in *. rewrite !map_app, VS, !in_app_iff. rewrite flat_map_app in HI. cbn [flat_map] in HI.
    rewrite !in_app_iff in HI. destruct HI as [HI|[HI|HI]].
    + destruct (L _ H K1 _ HI); auto.
    + destruct (IHp K2 _ HI); auto.
    + destruct (L _ H0 K4 _ HI); auto 6.
Qed.
Lemma vars_in_ids : forall p, keeps p -> forall v, In v (vars 0 p) -> exists y, fst v = OSym y /\ In y (ids (as_tmpl p)).
Proof.
  assert (L : forall ps, Forall (fun p => keeps p -> forall v, In v (vars 0 p) -> exists y, fst v = OSym y /\ In y (ids (as_tmpl p))) ps ->
    Forall keeps ps -> forall v, In v (flat_map (vars 0) ps) -> exists y, fst v = OSym y /\ In y (flat_map ids (map as_tmpl ps))).
  { intros ps H HK v. induction H as [|p ps Hp Hps IH]; cbn; [tauto|]. inversion HK; subst. rewrite in_app_iff.
    intros [HI|HI]; [destruct (Hp H1 v HI) as [y [A B]]|destruct (IH H2 HI) as [y [A B]]]; exists y; rewrite in_app_iff; auto. }
  assert (VS : forall p v, In v (vars 1 p) -> exists w, In w (vars 0 p) /\ fst w = fst v).
  { intros p v H. rewrite vars_shift in H. apply in_map_iff in H. destruct H as [w [<- HI]]. eauto. }
  intros p. induction p using pat_ind_strong; intros K v HI.
  - inversion K.
  - cbn in *. destruct HI as [<-|[]]. exists x. cbn. auto.
  - cbn in HI. tauto.
  - inversion K as [| |? ? K1 K2| | |]; subst. cbn [vars] in HI. rewrite in_app_iff in HI.
    assert (E : ids (as_tmpl (PList ps tl)) = flat_map ids (map as_tmpl ps) ++ match tl with Some t => ids (as_tmpl t) | None => [] end).
    { destruct ps as [|p0 ps]; [destruct tl|]; try reflexivity. cbn [as_tmpl ids]. destruct tl; reflexivity. }
    rewrite E. destruct HI as [HI|HI].
    + destruct (L _ H K1 _ HI) as [y [A B]]. exists y. rewrite in_app_iff. auto.
    + destruct tl as [t|]; [|destruct HI]. destruct (H0 t eq_refl (K2 t eq_refl) _ HI) as [y [A B]]. exists y. rewrite in_app_iff. auto.
  - inversion K as [| | |? ? ? K1 K2 K3 K4| |]; subst.
    cbn [vars as_tmpl ids] in *. rewrite app_nil_r in *. rewrite flat_map_app. cbn [flat_map ids]. rewrite !in_app_iff in HI. destruct HI as [HI|[HI|HI]].
    + destruct (L _ H K1 _ HI) as [y [A B]]. exists y. rewrite !in_app_iff. auto.
    + destruct (VS _ _ HI) as [w [A B]]. destruct (IHp K2 _ A) as [y [C D]]. exists y. rewrite !in_app_iff. rewrite <- B. auto.
    + destruct (L _ H0 K4 _ HI) as [y [A B]]. exists y. rewrite !in_app_iff. auto.
  - inversion K; subst. cbn [vars as_tmpl ids] in *. apply L; auto.
  - inversion K as [| | | | |? ? ? K1 K2 K3 K4]; subst.
    cbn [vars as_tmpl ids] in *. rewrite flat_map_app. cbn [flat_map ids]. rewrite !in_app_iff in HI. destruct HI as [HI|[HI|HI]].
    + destruct (L _ H K1 _ HI) as [y [A B]]. exists y. rewrite !in_app_iff. auto.
    + destruct (VS _ _ HI) as [w [A B]]. destruct (IHp K2 _ A) as [y [C D]]. exists y. rewrite !in_app_iff. rewrite <- B. auto.
    + destruct (L _ H0 K4 _ HI) as [y [A B]]. exists y. rewrite !in_app_iff. auto.
Qed.

Lemma ell_reps : forall rho p rows, keeps p -> vars 0 p <> [] -> frees rho (lsyms p) ->
  Forall2 (binds rho) (vars 1 p) (columns (length (vars 0 p)) rows) ->
  repetitions rho (ids (as_tmpl p)) = Some (length rows).
Proof.
  intros rho p rows K NV FR B.
  assert (COL : forall v b, In (v, b) (combine (vars 1 p) (columns (length (vars 0 p)) rows)) -> exists l, to_list b = Some l /\ length l = length rows).
  { intros v b HI. apply in_combine_r in HI. unfold columns in HI. apply in_map_iff in HI. destruct HI as [j [<- _]].
    eexists. split; [apply to_list_of_list|]. apply map_length. }
  assert (RUN : forall y, In y (ids (as_tmpl p)) -> rho y = None \/ exists k b l, rho y = Some (S k, b) /\ to_list b = Some l /\ length l = length rows).
  { intros y HI. destruct (ids_of p K y HI) as [HV|HL]; [|left; apply FR; auto]. right.
    assert (HV1 : In (OSym y) (map fst (vars 1 p))) by (rewrite vars_shift, map_map; exact HV). apply in_map_iff in HV1. destruct HV1 as [v [EV HV1]].
    destruct (Forall2_in_l _ _ _ B _ HV1) as [b [HC [x [EX HR]]]]. destruct (COL _ _ HC) as [l [A1 A2]].
    assert (x = y) by congruence. subst x. rewrite vars_shift in HV1. apply in_map_iff in HV1. destruct HV1 as [w [EW _]].
    rewrite <- EW in HR. cbn [snd] in HR. rewrite Nat.add_1_r in HR. eauto 8. }
  assert (RUNS : Forall (fun b => exists l, to_list b = Some l /\ length l = length rows) (runs rho (ids (as_tmpl p)))).
  { apply Forall_forall. intros b HI. unfold runs in HI. apply in_flat_map in HI. destruct HI as [y [HY HI]].
    destruct (RUN y HY) as [E|[k [b' [l [E [A1 A2]]]]]]; rewrite E in HI; [destruct HI|]. destruct HI as [<-|[]]. eauto. }
  assert (NE : runs rho (ids (as_tmpl p)) <> []).
  { destruct (vars 0 p) as [|v vs] eqn:EV; [congruence|]. destruct (vars_in_ids p K v) as [y [E1 E2]]; [rewrite EV; left; auto|].
    destruct (RUN y E2) as [E|[k [b [l [E _]]]]].
    - exfalso. assert (HV1 : In (fst v, snd v + 1) (vars 1 p)) by (rewrite vars_shift; apply in_map_iff; exists v; rewrite EV; cbn; auto).
      destruct (Forall2_in_l _ _ _ B _ HV1) as [b [_ [x [EX HR]]]]. cbn in EX. assert (x = y) by congruence. subst. congruence.
    - intros E0. assert (HI : In b (runs rho (ids (as_tmpl p)))) by (unfold runs; apply in_flat_map; exists y; rewrite E; split; auto; left; auto).
      rewrite E0 in HI. destruct HI. }
  unfold repetitions. destruct (runs rho (ids (as_tmpl p))) as [|b bs]; [congruence|]. inversion RUNS as [|? ? [l [A1 A2]] RB]; subst.
  rewrite A1. rewrite A2. replace (forallb _ bs) with true; [reflexivity|]. symmetry. apply forallb_forall. intros w HI.
  rewrite Forall_forall in RB. destruct (RB w HI) as [m [B1 B2]]. rewrite B1. apply Nat.eqb_eq. auto.
Qed.
Lemma ell_row : forall rho p rows i row, Forall2 (binds rho) (vars 1 p) (columns (length (vars 0 p)) rows) ->
  nth_error rows i = Some row -> length row = length (vars 0 p) -> Forall2 (binds (at_ i rho)) (vars 0 p) row.
Proof.
  intros rho p rows i row B HR HL. rewrite vars_shift in B. unfold columns in B.
  assert (G : forall vs r k, (forall j, j < length vs -> nth_error r j = nth_error row (k + j)) -> length r = length vs ->
    Forall2 (binds rho) (map (fun v => (fst v, snd v + 1)) vs) (map (fun i => of_list (map (fun r => nth i r ONull) rows)) (seq k (length vs))) ->
    Forall2 (binds (at_ i rho)) vs r).
  { induction vs as [|v vs IH]; intros [|b r] k HN HLr H; cbn [length] in *; try discriminate; constructor.
    - cbn [map seq] in H. inversion H as [|? ? ? ? [x [E1 E2]] _]; subst. exists x. split; [exact E1|]. unfold at_. rewrite E2. cbn [snd].
      rewrite Nat.add_1_r. rewrite to_list_of_list. rewrite nth_error_map, HR. cbn [option_map].
      specialize (HN 0 ltac:(lia)). cbn in HN. rewrite Nat.add_0_r in HN. f_equal. f_equal. apply nth_error_nth. auto.
    - cbn [map seq] in H. inversion H; subst. apply IH with (k := S k); auto.
      intros j Hj. specialize (HN (S j) ltac:(lia)). cbn in HN. rewrite HN. f_equal. lia. }
  apply G with (k := 0); auto.
Qed.

Theorem keeps_inst :
  (forall p e bs, pm p e bs -> keeps p -> forall rho, frees rho (lsyms p) -> Forall2 (binds rho) (vars 0 p) bs ->
     insts rho (as_tmpl p) = Some [strip e]) /\
  (forall ps es bs, pml ps es bs -> Forall keeps ps -> forall rho, frees rho (flat_map lsyms ps) -> Forall2 (binds rho) (flat_map (vars 0) ps) bs ->
     oconcat (map (insts rho) (map as_tmpl ps)) = Some (map strip es)) /\
  (forall p es rows, pmr p es rows -> keeps p ->
     Forall2 (fun e row => length row = length (vars 0 p) /\
       forall rho, frees rho (lsyms p) -> Forall2 (binds rho) (vars 0 p) row -> insts rho (as_tmpl p) = Some [strip e]) es rows) /\
  (forall tl e bs, pmt tl e bs -> (forall t, tl = Some t -> keeps t) -> forall rho,
     frees rho (match tl with Some t => lsyms t | None => [] end) ->
     Forall2 (binds rho) (match tl with Some t => vars 0 t | None => [] end) bs ->
     match tl with Some t => insts rho (as_tmpl t) = Some [strip e] | None => strip e = ONull end).
Proof.
  assert (ROWS : forall p mids rows rho, keeps p -> vars 0 p <> [] ->
    Forall2 (fun e row => length row = length (vars 0 p) /\
       forall rho, frees rho (lsyms p) -> Forall2 (binds rho) (vars 0 p) row -> insts rho (as_tmpl p) = Some [strip e]) mids rows ->
    frees rho (lsyms p) -> Forall2 (binds rho) (vars 1 p) (columns (length (vars 0 p)) rows) ->
    insts rho (TRep (as_tmpl p)) = Some (map strip mids)).
  { intros p mids rows rho K NV F FR B. cbn [insts]. rewrite (ell_reps rho p rows K NV FR B).
    assert (G : forall es rs k, Forall2 (fun e row => length row = length (vars 0 p) /\
       forall rho, frees rho (lsyms p) -> Forall2 (binds rho) (vars 0 p) row -> insts rho (as_tmpl p) = Some [strip e]) es rs ->
       (forall j, j < length rs -> nth_error rs j = nth_error rows (k + j)) ->
       oconcat (map (fun i => insts (at_ i rho) (as_tmpl p)) (seq k (length rs))) = Some (map strip es)).
    { intros es rs k FF. revert k. induction FF as [|e r es rs [HL HI] FF IH]; intros k HN; [reflexivity|].
      cbn [length seq map oconcat]. rewrite HI; [|apply frees_at; auto|].
      - rewrite IH; [reflexivity|]. intros j Hj. specialize (HN (S j) ltac:(cbn; lia)). cbn in HN. rewrite HN. f_equal. lia.
      - eapply ell_row; eauto. specialize (HN 0 ltac:(cbn; lia)). cbn in HN. rewrite Nat.add_0_r in HN. auto. }
    apply G; auto. }
  assert (LP : forall ps es bs, pml ps es bs -> length (flat_map (vars 0) ps) = length bs).
  { intros ps es bs H. apply (proj1 (proj2 pm_shaped)) in H. eapply Forall2_len; eauto. }
  assert (LC : forall p rows, length (vars 1 p) = length (columns (length (vars 0 p)) rows)).
  { intros. rewrite vars_shift. unfold columns. rewrite !map_length, seq_length. auto. }
  apply pm_mutind.
  - intros e K. inversion K.
  - intros x e K rho FR B. cbn in *. inversion B as [|? ? ? ? [y [E1 E2]] _]; subst. cbn in E1. injection E1 as ->. rewrite E2. reflexivity.
  - intros d l K rho FR B. inversion K as [|? SD| | | |]; subst. cbn [strip]. rewrite SD.
    destruct d; try reflexivity. cbn [as_tmpl insts]. rewrite (FR name); [reflexivity|left; auto].
  - intros ps tl e es rest bs bt SP PL IHL PT IHT K rho FR B. inversion K as [| |? ? K1 K2| | |]; subst.
    cbn [lsyms vars] in FR, B. apply frees_app in FR. destruct FR as [F1 F2].
    destruct (Forall2_split _ _ _ _ _ B (LP _ _ _ PL)) as [B1 B2]. specialize (IHL K1 rho F1 B1). specialize (IHT K2 rho F2 B2).
    rewrite (spine_strip _ _ _ SP).
    destruct ps as [|p0 ps]; [destruct tl as [t|]|].
    + inversion PL; subst. cbn [as_tmpl map insts oconcat]. rewrite IHT. reflexivity.
    + inversion PL; subst. cbn [as_tmpl insts]. rewrite IHT. reflexivity.
    + cbn [as_tmpl insts]. rewrite IHL. destruct tl as [t|]; rewrite IHT; reflexivity.
  - intros ps p qs tl e es1 mids es2 rest b1 rows b2 bt SP ND PL1 IH1 PR IHR PL2 IH2 PT IHT K rho FR B.
    inversion K as [| | |? ? ? K1 K2 K3 K4| |]; subst. cbn [lsyms vars] in FR, B.
    apply frees_app in FR. destruct FR as [F1 FR]. apply frees_app in FR. destruct FR as [F2 FR]. apply frees_app in FR. destruct FR as [F3 _].
    destruct (Forall2_split _ _ _ _ _ B (LP _ _ _ PL1)) as [B1 BB]. destruct (Forall2_split _ _ _ _ _ BB (LC _ _)) as [B2 BC].
    destruct (Forall2_split _ _ _ _ _ BC (LP _ _ _ PL2)) as [B3 B4].
    specialize (IHT ltac:(discriminate) rho ltac:(intros x []) B4). cbn [as_tmpl insts].
    rewrite map_app, oconcat_app. rewrite (IH1 K1 rho F1 B1). cbn [map oconcat]. rewrite (ROWS p mids rows rho K2 K3 (IHR K2) F2 B2).
    rewrite (IH2 K4 rho F3 B3). rewrite (spine_strip _ _ _ SP), IHT, !map_app. reflexivity.
  - intros ps e es bs V PL IHL K rho FR B. inversion K as [| | | |? K1|]; subst. cbn [as_tmpl insts lsyms vars] in *. rewrite (IHL K1 rho FR B).
    inversion V; reflexivity.
  - intros ps p qs e es1 mids es2 b1 rows b2 V PL1 IH1 PR IHR PL2 IH2 K rho FR B.
    inversion K as [| | | | |? ? ? K1 K2 K3 K4]; subst. cbn [lsyms vars] in FR, B.
    apply frees_app in FR. destruct FR as [F1 FR]. apply frees_app in FR. destruct FR as [F2 F3].
    destruct (Forall2_split _ _ _ _ _ B (LP _ _ _ PL1)) as [B1 BB]. destruct (Forall2_split _ _ _ _ _ BB (LC _ _)) as [B2 B3].
    cbn [as_tmpl insts]. rewrite map_app, oconcat_app. rewrite (IH1 K1 rho F1 B1). cbn [map oconcat]. rewrite (ROWS p mids rows rho K2 K3 (IHR K2) F2 B2).
    rewrite (IH2 K4 rho F3 B3). rewrite <- !map_app. inversion V; subst; cbn [strip]; auto.
  - intros _ rho _ _. reflexivity.
  - intros p ps e es b bs P IHP PL IHL K rho FR B. inversion K; subst. cbn [flat_map map oconcat] in *. apply frees_app in FR. destruct FR as [F1 F2].
    assert (L1 : length (vars 0 p) = length b) by (apply (proj1 pm_shaped) in P; eapply Forall2_len; eauto).
    destruct (Forall2_split _ _ _ _ _ B L1) as [B1 B2]. rewrite (IHP H1 rho F1 B1), (IHL H2 rho F2 B2). reflexivity.
  - constructor.
  - intros p e es b rows P IHP PR IHR K. constructor; auto. split; [|auto].
    apply (proj1 pm_shaped) in P. symmetry. eapply Forall2_len; eauto.
  - intros rest E _ rho _ _. inversion E; reflexivity.
  - intros t rest b P IHP K rho FR B. apply IHP; auto.
Qed.

(** distinct variables: the environment binds them all *)
Lemma env_binds : forall p bs, length (vars 0 p) = length bs -> NoDup (map fst (vars 0 p)) -> (forall v, In v (vars 0 p) -> exists x, fst v = OSym x) ->
  Forall2 (binds (env_of p bs)) (vars 0 p) bs.
Proof.
  intros p bs. unfold env_of. generalize (vars 0 p). intros vs L ND SY.
  assert (G : forall pre pb vs bs, length pre = length pb -> length vs = length bs -> NoDup (map fst (pre ++ vs)) ->
    (forall v, In v (pre ++ vs) -> exists x, fst v = OSym x) ->
    Forall2 (binds (fun x => match find (fun e : obj * nat * obj => match fst (fst e) with OSym y => if list_eq_dec ascii_dec y x then true else false | _ => false end)
             (combine (pre ++ vs) (pb ++ bs)) with Some e => Some (snd (fst e), snd e) | None => None end)) vs bs).
  { clear. intros pre pb vs. revert pre pb. induction vs as [|v vs IH]; intros pre pb [|b bs] L1 L2 ND SY; try discriminate; constructor.
    - destruct (SY v) as [x EX]; [apply in_or_app; right; left; auto|]. exists x. split; auto.
      assert (F : forall l m, length l = length m -> ~ In (OSym x) (map fst l) -> forall l' m',
        find (fun e : obj * nat * obj => match fst (fst e) with OSym y => if list_eq_dec ascii_dec y x then true else false | _ => false end) (combine (l ++ l') (m ++ m')) =
        find (fun e : obj * nat * obj => match fst (fst e) with OSym y => if list_eq_dec ascii_dec y x then true else false | _ => false end) (combine l' m')).
      { induction l as [|w l IHl]; intros [|c m] HL HN l' m'; try discriminate; [reflexivity|]. cbn [app combine find fst].
        rewrite IHl; [|cbn in HL; lia|intros HI; apply HN; right; auto].
        assert (fst w <> OSym x) by (intros E; apply HN; left; auto). destruct (fst w); auto. destruct (list_eq_dec ascii_dec name x); auto. congruence. }
      rewrite F; auto.
      + cbn [combine find fst]. rewrite EX. destruct (list_eq_dec ascii_dec x x); [reflexivity|congruence].
      + rewrite map_app in ND. apply NoDup_remove_2 in ND. intros HI. apply ND. apply in_or_app. left. rewrite EX. auto.
    - specialize (IH (pre ++ [v]) (pb ++ [b]) bs). rewrite <- !app_assoc in IH. apply IH; auto. rewrite !app_length. cbn. lia. }
  apply (G [] [] vs bs); auto.
Qed.
Lemma env_frees : forall p bs xs, (forall x, In x xs -> ~ In (OSym x) (map fst (vars 0 p))) -> frees (env_of p bs) xs.
Proof.
  intros p bs xs H x HI. unfold env_of. destruct (find _ _) as [[v b]|] eqn:E; auto. exfalso. apply find_some in E. destruct E as [E1 E2].
  cbn [fst] in E2. destruct (fst v) eqn:EV; try discriminate. destruct (list_eq_dec ascii_dec name x); [|discriminate]. subst.
  apply (H x HI). apply in_combine_l in E1. rewrite <- EV. apply in_map. auto.
Qed.
Lemma wf_names : forall lits p, wf lits p -> (forall v, In v (vars 0 p) -> exists x, fst v = OSym x /\ ~ In (OSym x) lits) /\ (forall x, In x (lsyms p) -> In (OSym x) lits).
Proof.
  intros lits.
  assert (VS : forall p v, In v (vars 1 p) -> exists w, In w (vars 0 p) /\ fst w = fst v).
  { intros p v H. rewrite vars_shift in H. apply in_map_iff in H. destruct H as [w [<- HI]]. eauto. }
  assert (L : forall ps, Forall (fun p => wf lits p -> (forall v, In v (vars 0 p) -> exists x, fst v = OSym x /\ ~ In (OSym x) lits) /\ (forall x, In x (lsyms p) -> In (OSym x) lits)) ps ->
    Forall (wf lits) ps -> (forall v, In v (flat_map (vars 0) ps) -> exists x, fst v = OSym x /\ ~ In (OSym x) lits) /\ (forall x, In x (flat_map lsyms ps) -> In (OSym x) lits)).
  { intros ps H HW. induction H as [|p ps Hp Hps IH]; cbn; [tauto|]. inversion HW; subst. destruct (Hp H1) as [A B], (IH H2) as [C D].
    split; intros z HI; apply in_app_iff in HI; destruct HI; auto. }
  intros p. induction p using pat_ind_strong; intros W; cbn [vars lsyms].
  - split; intros ? [].
  - inversion W; subst. split; [|intros ? []]. intros v [<-|[]]. exists x. auto.
  - inversion W as [| |? LT| | | |]; subst. split; [intros ? []|]. destruct d; cbn in *; try tauto. intros z [<-|[]]. tauto.
  - inversion W as [| | |? ? W1 W2| | |]; subst. destruct (L ps H W1) as [A B].
    split; intros z HI; apply in_app_iff in HI; destruct HI as [HI|HI]; auto; (destruct tl as [t|]; [|destruct HI]);
      destruct (H0 t eq_refl (proj1 (W2 t eq_refl))) as [C D]; auto.
  - inversion W as [| | | |? ? ? ? W1 W2 W3 W4| |]; subst. destruct (L ps H W1) as [A B], (L qs H0 W3) as [C D], (IHp W2) as [E F].
    split; intros z HI; rewrite !in_app_iff in HI; destruct HI as [HI|[HI|[HI|HI]]]; auto.
    + destruct (VS _ _ HI) as [w [P Q]]. rewrite <- Q. auto.
    + destruct tl as [t|]; [|destruct HI]. destruct (H1 t eq_refl (proj1 (W4 t eq_refl))) as [G K]; auto.
    + destruct tl as [t|]; [|destruct HI]. destruct (H1 t eq_refl (proj1 (W4 t eq_refl))) as [G K]; auto.
  - inversion W; subst. apply L; auto.
  - inversion W as [| | | | | |? ? W1 W2]; subst. destruct (L ps H W1) as [A B], (IHp W2) as [E F]. cbn [flat_map]. rewrite !app_nil_r.
    split; intros z HI; rewrite !in_app_iff in HI; destruct HI as [HI|HI]; auto.
    destruct (VS _ _ HI) as [w [P Q]]. rewrite <- Q. auto.
Qed.
(** the template of a pattern is well formed *)
Lemma as_tmpl_tok : forall lits p, wf lits p -> keeps p -> tok (as_tmpl p) /\ is_rep (as_tmpl p) = false.
Proof.
  intros lits.
  assert (SPC : forall x, special x = false -> x <> s2b "...").
  { intros x H E. subst. discriminate. }
  assert (L : forall ps, Forall (fun p => wf lits p -> keeps p -> tok (as_tmpl p) /\ is_rep (as_tmpl p) = false) ps -> Forall (wf lits) ps -> Forall keeps ps ->
     Forall tel (map as_tmpl ps) /\ existsb is_rep (map as_tmpl ps) = false).
  { intros ps H W K. induction H as [|p ps Hp Hps IH]; cbn; [split; auto|]. inversion W; inversion K; subst. destruct (Hp H1 H5) as [A B]. destruct IH as [C D]; auto.
    rewrite B, D. split; auto. constructor; auto. constructor; auto. }
  intros p. induction p using pat_ind_strong; intros W K; inversion W as [|? SX|? LT|? ? W1 W2|? ? ? ? W1 W2 W3 W4|? W1|? ? W1 W2]; subst;
    inversion K as [|? SD|? ? K1 K2|? ? ? K1 K2 K3 K4|? K1|? ? ? K1 K2 K3 K4]; subst.
  - split; [constructor; apply SPC; auto|auto].
  - destruct d; cbn in LT; try contradiction; cbn [as_tmpl]; (split; [constructor; try reflexivity|reflexivity]). apply SPC. tauto.
  - destruct (L ps H W1 K1) as [A B].
    assert (T : forall t', match tl with Some t => Some (as_tmpl t) | None => None end = Some t' -> tok t' /\ is_list t' = false /\ existsb is_rep (map as_tmpl ps) = false).
    { intros t' E. destruct tl as [t|]; [|discriminate]. injection E as <-. destruct (W2 t eq_refl) as [Wt [St _]]. destruct (H0 t eq_refl Wt (K2 t eq_refl)) as [C _].
      split; auto. split; auto. destruct t; try contradiction; auto. destruct d; auto. }
    destruct ps as [|p0 ps].
    + destruct tl as [t|]; [destruct (W2 t eq_refl) as [_ [_ NE]]; congruence|]. cbn. split; auto. constructor; auto.
    + cbn [as_tmpl]. split; auto. constructor; auto. discriminate.
  - destruct (L ps H W1 K1) as [A B], (L qs H0 W3 K4) as [C D], (IHp W2 K2) as [E F]. cbn [as_tmpl]. split; auto. constructor.
    + destruct (map as_tmpl ps); discriminate.
    + apply Forall_app. split; auto. constructor; auto. apply TelRep; auto.
    + discriminate.
  - destruct (L ps H W1 K1) as [A B]. cbn [as_tmpl]. split; auto. constructor; auto.
  - destruct (L ps H W1 K1) as [A B], (IHp W2 K2) as [E F]. cbn [as_tmpl map]. split; auto. constructor. apply Forall_app. split; auto. constructor; auto. apply TelRep; auto.
Qed.

(** the text is the same *)
Lemma as_tmpl_text : forall p, (forall lits, wf lits p -> keeps p -> tobj (as_tmpl p) = pobj p).
Proof.
  intros p lits W K.
  assert (L : forall ps, Forall (fun p => wf lits p -> keeps p -> tobj (as_tmpl p) = pobj p) ps -> Forall (wf lits) ps -> Forall keeps ps ->
     flat_map eobj (map as_tmpl ps) = map pobj ps).
  { intros ps H HW HK. induction H as [|q ps Hp Hps IH]; [reflexivity|]. inversion HW; inversion HK; subst. cbn [map flat_map].
    rewrite (eobj_one (as_tmpl q)) by (apply (as_tmpl_tok lits); auto). rewrite Hp, IH by auto. reflexivity. }
  revert W K. induction p using pat_ind_strong; intros W K; inversion W as [|? SX|? LT|? ? W1 W2|? ? ? ? W1 W2 W3 W4|? W1|? ? W1 W2]; subst;
    inversion K as [|? SD|? ? K1 K2|? ? ? K1 K2 K3 K4|? K1|? ? ? K1 K2 K3 K4]; subst.
  - reflexivity.
  - destruct d; reflexivity.
  - assert (T : match match tl with Some t => Some (as_tmpl t) | None => None end with Some t => tobj t | None => ONull end = match tl with Some t => pobj t | None => ONull end).
    { destruct tl as [t|]; auto. apply H0; auto. apply W2; auto. }
    destruct ps as [|p0 ps].
    + destruct tl as [t|]; [destruct (W2 t eq_refl) as [_ [_ NE]]; congruence|]. reflexivity.
    + cbn [as_tmpl tobj pobj]. rewrite T. rewrite flat_map_elems, L; auto.
  - cbn [as_tmpl tobj pobj]. rewrite flat_map_elems, flat_map_app. cbn [flat_map eobj app]. rewrite !L, IHp; auto.
  - cbn [as_tmpl tobj pobj]. rewrite flat_map_elems, L; auto.
  - cbn [as_tmpl tobj pobj map]. rewrite flat_map_elems, flat_map_app. cbn [flat_map eobj app]. rewrite !L, IHp; auto.
Qed.
(** and nothing in it is refused *)
Lemma as_tmpl_accepted : forall get p, keeps p -> forall d, frees get (lsyms p) ->
  (forall v, In v (vars d p) -> exists x b, fst v = OSym x /\ get x = Some (snd v, b)) -> enough get d (as_tmpl p) /\ driven get d (as_tmpl p).
Proof.
  intros get.
  assert (L : forall ps d, Forall (fun p => keeps p -> forall d, frees get (lsyms p) ->
      (forall v, In v (vars d p) -> exists x b, fst v = OSym x /\ get x = Some (snd v, b)) -> enough get d (as_tmpl p) /\ driven get d (as_tmpl p)) ps ->
    Forall keeps ps -> frees get (flat_map lsyms ps) ->
    (forall v, In v (flat_map (vars d) ps) -> exists x b, fst v = OSym x /\ get x = Some (snd v, b)) ->
    Forall (enough get d) (map as_tmpl ps) /\ Forall (driven get d) (map as_tmpl ps)).
  { intros ps d H HK FR HV. induction H as [|q ps Hp Hps IH]; cbn [map]; [split; constructor|]. inversion HK; subst. cbn [flat_map] in *.
    apply frees_app in FR. destruct FR as [F1 F2].
    destruct (Hp H1 d F1) as [A B]; [intros v HI; apply HV; apply in_or_app; auto|].
    destruct (IH H2 F2) as [C D]; [intros v HI; apply HV; apply in_or_app; auto|]. split; constructor; auto. }
  intros p. induction p using pat_ind_strong; intros K d0 FR HV; inversion K as [|? SD|? ? K1 K2|? ? ? K1 K2 K3 K4|? K1|? ? ? K1 K2 K3 K4]; subst.
  - destruct (HV (OSym x, d0)) as [y [b [E1 E2]]]; [left; auto|]. cbn in *. injection E1 as <-. rewrite E2. auto.
  - destruct d; cbn in *; auto. rewrite (FR name); [auto|left; auto].
  - cbn [lsyms vars] in *. apply frees_app in FR. destruct FR as [F1 F2].
    destruct (L ps d0 H K1 F1) as [A B]; [intros v HI; apply HV; apply in_or_app; auto|].
    assert (T : match match tl with Some t => Some (as_tmpl t) | None => None end with Some t => enough get d0 t /\ driven get d0 t | None => True end).
    { destruct tl as [t|]; auto. apply H0; auto. intros v HI; apply HV; apply in_or_app; auto. }
    assert (E : as_tmpl (PList ps tl) = TConst ONull \/ as_tmpl (PList ps tl) = TList (map as_tmpl ps) (match tl with Some t => Some (as_tmpl t) | None => None end)).
    { destruct ps; destruct tl; auto. }
    destruct E as [E|E]; rewrite E; [split; exact Logic.I|]. cbn [enough driven]. rewrite !fold_and. destruct tl; tauto.
  - cbn [lsyms vars as_tmpl enough driven] in *. apply frees_app in FR. destruct FR as [F1 FR]. apply frees_app in FR. destruct FR as [F2 FR].
    apply frees_app in FR. destruct FR as [F3 _].
    destruct (L ps d0 H K1 F1) as [A B]; [intros v HI; apply HV; apply in_or_app; auto|].
    destruct (L qs d0 H0 K4 F3) as [C D]; [intros v HI; apply HV; rewrite !in_app_iff; auto|].
    destruct (IHp K2 (S d0) F2) as [E F]; [intros v HI; apply HV; rewrite !in_app_iff; auto|].
    rewrite !fold_and. split; (split; auto); apply Forall_app; split; auto; constructor; auto.
    cbn [driven]. split; auto. destruct (vars 0 p) as [|v vs] eqn:EV; [congruence|]. destruct (vars_in_ids p K2 v) as [y [E1 E2]]; [rewrite EV; left; auto|].
    destruct (HV (fst v, snd v + S d0)) as [x [b [G1 G2]]].
    { rewrite !in_app_iff. right; left. rewrite vars_shift. apply in_map_iff. exists v. rewrite EV. split; auto. left; auto. }
    cbn in G1, G2. assert (x = y) by congruence. subst. exists y, (snd v + S d0), b. split; auto. split; auto. lia.
  - cbn [lsyms vars as_tmpl enough driven] in *. rewrite !fold_and. destruct (L ps d0 H K1 FR HV). auto.
  - cbn [lsyms vars as_tmpl enough driven] in *. apply frees_app in FR. destruct FR as [F1 FR]. apply frees_app in FR. destruct FR as [F2 F3].
    destruct (L ps d0 H K1 F1) as [A B]; [intros v HI; apply HV; apply in_or_app; auto|].
    destruct (L qs d0 H0 K4 F3) as [C D]; [intros v HI; apply HV; rewrite !in_app_iff; auto|].
    destruct (IHp K2 (S d0) F2) as [E F]; [intros v HI; apply HV; rewrite !in_app_iff; auto|].
    rewrite !fold_and. split; (split; auto); apply Forall_app; split; auto; constructor; auto.
    cbn [driven]. split; auto. destruct (vars 0 p) as [|v vs] eqn:EV; [congruence|]. destruct (vars_in_ids p K2 v) as [y [E1 E2]]; [rewrite EV; left; auto|].
    destruct (HV (fst v, snd v + S d0)) as [x [b [G1 G2]]].
    { rewrite !in_app_iff. right; left. rewrite vars_shift. apply in_map_iff. exists v. rewrite EV. split; auto. left; auto. }
    cbn in G1, G2. assert (x = y) by congruence. subst. exists y, (snd v + S d0), b. split; auto. split; auto. lia.
Qed.
