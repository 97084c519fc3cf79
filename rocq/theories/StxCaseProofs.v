(** Specification of the patterns of [syntax-case] and lemmas. *)
From Coq Require Import ZArith NArith Bool Ascii String List Arith Lia.
From Verif Require Import Base Check Expand LibRead StxCase.
Import ListNotations.
Local Open Scope list_scope.

(** * Specification *)

(** Patterns.  [PList ps tl]: (p1 ... pn) or (p1 ... pn . tl); [PEll ps p qs tl]:
    (p1 ... pn p <ellipsis> q1 ... qm) or the same with a tail; [PVec], [PVecEll]:
    vectors.  The empty list is [PList [] None]. *)
Inductive pat : Type :=
| PWild
| PVar (x : list byte)
| PLit (d : obj)
| PList (ps : list pat) (tl : option pat)
| PEll (ps : list pat) (p : pat) (qs : list pat) (tl : option pat)
| PVec (ps : list pat)
| PVecEll (ps : list pat) (p : pat) (qs : list pat).

(** The syntax object of a pattern. *)
Definition chain (l : list obj) (t : obj) : obj := fold_right OPair t l.
Definition DOTS : obj := OSyntax (OSym (s2b "...")) OFalse.
Fixpoint pobj (p : pat) : obj :=
  let tail t := match t with Some t => pobj t | None => ONull end in
  match p with
  | PWild => OSyntax (OSym (s2b "_")) OFalse
  | PVar x => OSyntax (OSym x) OFalse
  | PLit d => OSyntax d OFalse
  | PList ps tl => OSyntax (chain (map pobj ps) (tail tl)) OFalse
  | PEll ps p qs tl => OSyntax (chain (map pobj ps ++ pobj p :: DOTS :: map pobj qs) (tail tl)) OFalse
  | PVec ps => OSyntax (OVec (map pobj ps)) OFalse
  | PVecEll ps p qs => OSyntax (OVec (map pobj ps ++ pobj p :: DOTS :: map pobj qs)) OFalse
  end.

(** The variables of a pattern in the order of the text, with the number of ellipses
    each one is under. *)
Fixpoint vars (depth : nat) (p : pat) : list (obj * nat) :=
  let tail t := match t with Some t => vars depth t | None => [] end in
  match p with
  | PWild | PLit _ => []
  | PVar x => [(OSym x, depth)]
  | PList ps tl => flat_map (vars depth) ps ++ tail tl
  | PEll ps p qs tl => flat_map (vars depth) ps ++ vars (S depth) p ++ flat_map (vars depth) qs ++ tail tl
  | PVec ps => flat_map (vars depth) ps
  | PVecEll ps p qs => flat_map (vars depth) ps ++ vars (S depth) p ++ flat_map (vars depth) qs
  end.

(** [spine e es rest]: [e] is a sequence of the elements [es] followed by [rest];
    the pairs may be wrapped in syntax objects. *)
Inductive spine : obj -> list obj -> obj -> Prop :=
| SpNil : forall e, spine e [] e
| SpPair : forall a d es rest, spine d es rest -> spine (OPair a d) (a :: es) rest
| SpStx : forall a d l es rest, spine d es rest -> spine (OSyntax (OPair a d) l) (a :: es) rest.
Inductive empty : obj -> Prop :=
| EmNull : empty ONull
| EmStx : forall l, empty (OSyntax ONull l).
(** the elements of a vector *)
Inductive vector : obj -> list obj -> Prop :=
| VeNil : forall l, vector (OSyntax OEmptyVec l) []
| VeVec : forall es l, vector (OSyntax (OVec es) l) es.
(** the list of the i-th entries of the rows, for each i below n *)
Definition columns (n : nat) (rows : list (list obj)) : list obj :=
  map (fun i => of_list (map (fun r => nth i r ONull) rows)) (seq 0 n).

(** [pm p e bs]: the value [e] matches the pattern [p] and [bs] are the values of its
    variables, in the order of [vars]; a variable under an ellipsis is bound to the
    list of the values of the repetitions. *)
Inductive pm : pat -> obj -> list obj -> Prop :=
| PmWild : forall e, pm PWild e []
| PmVar : forall x e, pm (PVar x) e [e]
| PmLit : forall d l, pm (PLit d) (OSyntax d l) []
| PmList : forall ps tl e es rest bs bt,
    spine e es rest -> pml ps es bs -> pmt tl rest bt -> pm (PList ps tl) e (bs ++ bt)
| PmEll : forall ps p qs tl e es1 mids es2 rest b1 rows b2 bt,
    spine e (es1 ++ mids ++ es2) rest -> (forall x r, ~ spine rest [x] r) ->
    pml ps es1 b1 -> pmr p mids rows -> pml qs es2 b2 -> pmt tl rest bt ->
    pm (PEll ps p qs tl) e (b1 ++ columns (length (vars 0 p)) rows ++ b2 ++ bt)
| PmVec : forall ps e es bs, vector e es -> pml ps es bs -> pm (PVec ps) e bs
| PmVecEll : forall ps p qs e es1 mids es2 b1 rows b2,
    vector e (es1 ++ mids ++ es2) ->
    pml ps es1 b1 -> pmr p mids rows -> pml qs es2 b2 ->
    pm (PVecEll ps p qs) e (b1 ++ columns (length (vars 0 p)) rows ++ b2)
with pml : list pat -> list obj -> list obj -> Prop :=
| PmlNil : pml [] [] []
| PmlCons : forall p ps e es b bs, pm p e b -> pml ps es bs -> pml (p :: ps) (e :: es) (b ++ bs)
with pmr : pat -> list obj -> list (list obj) -> Prop :=
| PmrNil : forall p, pmr p [] []
| PmrCons : forall p e es b rows, pm p e b -> pmr p es rows -> pmr p (e :: es) (b :: rows)
with pmt : option pat -> obj -> list obj -> Prop :=
| PmtNone : forall rest, empty rest -> pmt None rest []
| PmtSome : forall t rest b, pm t rest b -> pmt (Some t) rest b.

Scheme pm_mind := Minimality for pm Sort Prop
  with pml_mind := Minimality for pml Sort Prop
  with pmr_mind := Minimality for pmr Sort Prop
  with pmt_mind := Minimality for pmt Sort Prop.
Combined Scheme pm_mutind from pm_mind, pml_mind, pmr_mind, pmt_mind.

(** Well-formed patterns: variables are not literals, literal symbols are in the
    list of literals, tails are not lists.  A vector pattern has its ellipsis at the
    end. *)
Definition special (x : list byte) : bool :=
  if list_eq_dec ascii_dec x (s2b "_") then true else if list_eq_dec ascii_dec x (s2b "...") then true else false.
Definition literal (lits : list obj) (d : obj) : Prop :=
  match d with
  | OTrue | OFalse | OEof | OVoid | OStr _ | OFix _ | OChar _ => True
  | OSym x => special x = false /\ In (OSym x) lits
  | _ => False
  end.
Definition simple (p : pat) : Prop := match p with PWild | PVar _ | PLit _ => True | _ => False end.
Inductive wf (lits : list obj) : pat -> Prop :=
| WfWild : wf lits PWild
| WfVar : forall x, special x = false -> ~ In (OSym x) lits -> wf lits (PVar x)
| WfLit : forall d, literal lits d -> wf lits (PLit d)
| WfList : forall ps tl, Forall (wf lits) ps -> (forall t, tl = Some t -> wf lits t /\ simple t /\ ps <> []) -> wf lits (PList ps tl)
| WfEll : forall ps p qs tl, Forall (wf lits) ps -> wf lits p -> Forall (wf lits) qs ->
    (forall t, tl = Some t -> wf lits t /\ simple t) -> wf lits (PEll ps p qs tl)
| WfVec : forall ps, Forall (wf lits) ps -> wf lits (PVec ps)
| WfVecEll : forall ps p, Forall (wf lits) ps -> wf lits p -> wf lits (PVecEll ps p []).

(** Patterns whose matching raises no error: no wildcard as an element of a list and
    no literal as the tail of a list. *)
Inductive tame : pat -> Prop :=
| TaWild : tame PWild
| TaVar : forall x, tame (PVar x)
| TaLit : forall d, tame (PLit d)
| TaList : forall ps tl, Forall (fun p => tame p /\ p <> PWild) ps ->
    (forall d, tl <> Some (PLit d)) -> tame (PList ps tl)
| TaEll : forall ps p qs tl, Forall (fun p => tame p /\ p <> PWild) ps -> tame p ->
    Forall (fun p => tame p /\ p <> PWild) qs ->
    (forall d, tl <> Some (PLit d)) -> tame (PEll ps p qs tl)
| TaVec : forall ps, Forall tame ps -> tame (PVec ps)
| TaVecEll : forall ps p qs, Forall tame ps -> tame p -> Forall tame qs -> tame (PVecEll ps p qs).

(** Syntax objects as datum->syntax and the reader make them: the pairs of a list
    are not wrapped, its elements and an improper tail are. *)
Inductive flat : obj -> Prop :=
| FlAtom : forall x l,
    (forall a d, x <> OPair a d) -> (forall e m, x <> OSyntax e m) -> (forall v, x <> OVec v) -> flat (OSyntax x l)
| FlList : forall es t l, Forall flat es ->
    (t = ONull \/ (flat t /\ ~ empty t /\ forall x r, ~ spine t [x] r)) ->
    flat (OSyntax (chain es t) l)
| FlVec : forall es l, Forall flat es -> flat (OSyntax (OVec es) l).

(** * Induction on patterns *)
Section PatInd.
  Variable P : pat -> Prop.
  Hypothesis Hw : P PWild.
  Hypothesis Hv : forall x, P (PVar x).
  Hypothesis Hl : forall d, P (PLit d).
  Hypothesis Hli : forall ps tl, Forall P ps -> (forall t, tl = Some t -> P t) -> P (PList ps tl).
  Hypothesis Hel : forall ps p qs tl, Forall P ps -> P p -> Forall P qs -> (forall t, tl = Some t -> P t) -> P (PEll ps p qs tl).
  Hypothesis Hve : forall ps, Forall P ps -> P (PVec ps).
  Hypothesis Hvl : forall ps p qs, Forall P ps -> P p -> Forall P qs -> P (PVecEll ps p qs).
  Fixpoint pat_ind_strong (p : pat) : P p :=
    let fix go (l : list pat) : Forall P l :=
      match l with [] => Forall_nil P | x :: r => Forall_cons x (pat_ind_strong x) (go r) end in
    let opt (t : option pat) : forall t', t = Some t' -> P t' :=
      match t return forall t', t = Some t' -> P t' with
      | Some t => fun t' E => match E in _ = o return match o with Some y => P y | None => True end with
                              | eq_refl => pat_ind_strong t end
      | None => fun t' E => match E in _ = o return match o with Some y => P y | None => True end with
                            | eq_refl => Logic.I end
      end in
    match p with
    | PWild => Hw | PVar x => Hv x | PLit d => Hl d
    | PList ps tl => Hli ps tl (go ps) (opt tl)
    | PEll ps p qs tl => Hel ps p qs tl (go ps) (pat_ind_strong p) (go qs) (opt tl)
    | PVec ps => Hve ps (go ps)
    | PVecEll ps p qs => Hvl ps p qs (go ps) (pat_ind_strong p) (go qs)
    end.
End PatInd.

(** * The matcher on patterns *)
Section AM.
  Variable am : pat -> obj -> mres (list obj).
  Fixpoint aseq (k : obj -> mres (list obj)) (ps : list pat) (e : obj) : mres (list obj) :=
    match ps with
    | [] => k e
    | p :: r =>
        match p with
        | PWild => if stx_null e then MNo else match stx_pair e with Some (_, d) => aseq k r d | None => MErr end
        | _ =>
            match stx_pair e with
            | None => MNo
            | Some (a, d) =>
                match p with
                | PVar _ => mcons a (aseq k r d)
                | PLit _ | PList [] _ => match am p a with MOk _ => aseq k r d | x => x end
                | _ => mapp (am p a) (aseq k r d)
                end
            end
        end
    end.
  Definition atail (tl : option pat) (e : obj) : mres (list obj) :=
    match tl with None => if stx_null e then MOk [] else MNo | Some t => am t e end.
  Definition aell (p : pat) (e : obj) : mres (list obj) :=
    if stx_list e then
      if stx_null e then MOk (repeat ONull (length (vars 0 p)))
      else match stx_to_list e with Some l => transpose (mmap (am p) l) | None => MNo end
    else MNo.
  Fixpoint avec (ps : list pat) (es : list obj) (k : mres (list obj)) : mres (list obj) :=
    match ps, es with p :: ps, e :: es => mapp (am p e) (avec ps es k) | _, _ => k end.
End AM.
Definition tailcount (tl : option pat) : nat := match tl with Some _ => 1 | None => 0 end.
Definition isnone (tl : option pat) : bool := match tl with Some _ => false | None => true end.
Definition avector (e : obj) (k : list obj -> mres (list obj)) : mres (list obj) :=
  match e with
  | OSyntax x _ => match vec_elems x with Some w => k w | None => MNo end
  | _ => match vec_elems e with Some _ => MErr | None => MNo end
  end.
Fixpoint amatch (p : pat) (e : obj) : mres (list obj) :=
  match p with
  | PWild => MOk []
  | PVar _ => MOk [e]
  | PLit d => match e with OSyntax x _ => if atom_eqb d x then MOk [] else MNo | _ => MErr end
  | PList ps tl =>
      aseq amatch (fun e => match tl with None => if stx_null e then MOk [] else MNo | Some t => amatch t e end) ps e
  | PEll ps p qs tl =>
      let tail e := match tl with None => if stx_null e then MOk [] else MNo | Some t => amatch t e end in
      if length qs + tailcount tl =? 0 then aseq amatch (aell amatch p) ps e
      else
        let n := Z.of_nat (length qs + tailcount tl) in
        let '(pre, post, m) := split_loop n (isnone tl) e in
        if (m =? n)%Z then mapp (aseq amatch (aell amatch p) ps (of_list pre)) (aseq amatch tail qs post) else MNo
  | PVec ps => avector e (fun w => if length w =? length ps then avec amatch ps w (MOk []) else MNo)
  | PVecEll ps p _ =>
      avector e (fun w =>
        if length ps <=? length w then
          avec amatch ps w
            (let rest := skipn (length ps) w in
             if length w - length ps =? 0 then MOk (repeat ONull (length (vars 0 p)))
             else transpose (mmap (amatch p) rest))
        else MNo)
  end.

(** * The code agrees with the matcher on patterns *)
Definition okend (t : obj) : Prop := t = ONull \/ syntaxp t = true.
Fixpoint totail (o : obj) : obj :=
  match o with
  | OPair a d => OPair (to_stx a) (totail d)
  | ONull => ONull
  | x => to_stx x
  end.
Lemma to_stx_pair : forall a d, to_stx (OPair a d) = OSyntax (OPair (to_stx a) (totail d)) OFalse.
Proof.
  intros. reflexivity.
Qed.
Lemma to_stx_syntax : forall o, syntaxp o = true -> to_stx o = o.
Proof. destruct o; cbn; congruence. Qed.
Lemma totail_chain : forall l t, Forall (fun x => syntaxp x = true) l -> okend t -> totail (chain l t) = chain l t.
Proof.
  induction l as [|a l IH]; intros t H E.
  - destruct E as [->|E]; [reflexivity|]. destruct t; cbn in *; congruence.
  - inversion H; subst. change (chain (a :: l) t) with (OPair a (chain l t)). cbn [totail].
    rewrite to_stx_syntax by auto. rewrite IH; auto.
Qed.
Lemma to_stx_chain : forall a l t, Forall (fun x => syntaxp x = true) (a :: l) -> okend t ->
  to_stx (chain (a :: l) t) = OSyntax (chain (a :: l) t) OFalse.
Proof.
  intros. cbn [chain fold_right]. rewrite to_stx_pair. inversion H; subst.
  rewrite to_stx_syntax by auto. fold (chain l t). rewrite totail_chain; auto.
Qed.

Lemma pobj_syntax : forall p, syntaxp (pobj p) = true.
Proof. destruct p; reflexivity. Qed.
Lemma map_pobj_syntax : forall ps, Forall (fun x => syntaxp x = true) (map pobj ps).
Proof. induction ps; cbn; constructor; auto using pobj_syntax. Qed.
Definition tailobj (tl : option pat) : obj := match tl with Some t => pobj t | None => ONull end.
Lemma tailobj_ok : forall tl, okend (tailobj tl).
Proof. destruct tl; cbn; [right; apply pobj_syntax | left; reflexivity]. Qed.

(** the remaining pattern in the loop over a list pattern *)
Definition rem (l : list obj) (t : obj) : obj :=
  match l with [] => match t with ONull => OSyntax ONull OFalse | _ => t end | _ => OSyntax (chain l t) OFalse end.
Lemma to_stx_rem : forall l t, Forall (fun x => syntaxp x = true) l -> okend t -> to_stx (chain l t) = rem l t.
Proof.
  destruct l; intros t H E.
  - cbn. destruct E as [->|E]; [reflexivity|]. destruct t; cbn in *; try congruence.
  - apply to_stx_chain; auto.
Qed.
Lemma stx_pair_rem : forall a l t, stx_pair (rem (a :: l) t) = Some (a, chain l t).
Proof. reflexivity. Qed.

Lemma stx_is_dots : stx_is "..." DOTS = true. Proof. reflexivity. Qed.

Lemma special_spec : forall x, special x = false -> x <> s2b "_" /\ x <> s2b "...".
Proof.
  intros x H. unfold special in H. destruct (list_eq_dec ascii_dec x (s2b "_")); [discriminate|].
  destruct (list_eq_dec ascii_dec x (s2b "...")); [discriminate|]. auto.
Qed.
Lemma stx_is_sym : forall name x l, x <> s2b name -> stx_is name (OSyntax (OSym x) l) = false.
Proof. intros. unfold stx_is. destruct (list_eq_dec ascii_dec x (s2b name)); congruence. Qed.

Lemma atom_eqb_sym : forall x o, atom_eqb (OSym x) o = true <-> o = OSym x.
Proof.
  intros. unfold atom_eqb. destruct o; split; intros H; try discriminate H; try (inversion H; fail).
  - destruct (list_eq_dec ascii_dec x name); [subst; reflexivity | discriminate].
  - inversion H; subst. destruct (list_eq_dec ascii_dec x x); congruence.
Qed.
Lemma in_lits : forall lits x, existsb (atom_eqb (OSym x)) lits = true <-> In (OSym x) lits.
Proof.
  intros. rewrite existsb_exists. split.
  - intros [o [H1 H2]]. apply atom_eqb_sym in H2. subst. auto.
  - intros. exists (OSym x). split; auto. apply atom_eqb_sym. auto.
Qed.
Lemma literal_eqb : forall lits d x, literal lits d -> (atom_eqb d x = true <-> x = d).
Proof.
  intros lits d x H. destruct d; cbn in H; try contradiction; destruct x; split; intros E;
    try discriminate E; try (inversion E; fail); try reflexivity; try (subst; reflexivity).
  - apply atom_eqb_sym in E. auto.
  - apply atom_eqb_sym. auto.
  - unfold atom_eqb in E. destruct (list_eq_dec ascii_dec buf buf0); [subst; auto | discriminate].
  - inversion E; subst. unfold atom_eqb. destruct (list_eq_dec ascii_dec buf buf); congruence.
  - cbn in E. apply Z.eqb_eq in E. subst; auto.
  - inversion E; subst. cbn. apply Z.eqb_refl.
  - cbn in E. apply Ascii.eqb_eq in E. subst; auto.
  - inversion E; subst. cbn. apply Ascii.eqb_refl.
Qed.

Lemma variablep_sym : forall lits x l, ~ In (OSym x) lits -> variablep lits (OSyntax (OSym x) l) = true.
Proof.
  intros. unfold variablep. cbn [symbolp andb]. destruct (existsb (atom_eqb (OSym x)) lits) eqn:E; auto.
  apply in_lits in E. contradiction.
Qed.
Lemma variablep_lit : forall lits d l, literal lits d -> variablep lits (OSyntax d l) = false.
Proof.
  intros. destruct d; cbn in *; try reflexivity; try contradiction.
  destruct H as [_ H]. apply in_lits in H. rewrite H. reflexivity.
Qed.

Lemma not_dots : forall lits p, wf lits p -> stx_is "..." (pobj p) = false.
Proof.
  intros lits p H. inversion H; subst; cbn [pobj]; try reflexivity.
  - apply stx_is_sym. apply special_spec; auto.
  - destruct d; cbn in H0; try contradiction; try reflexivity. apply stx_is_sym. apply special_spec; tauto.
  - unfold stx_is. destruct ps; cbn; [destruct tl as [t|]; [|reflexivity]|reflexivity].
    destruct (H1 t eq_refl) as [_ [_ N]]. congruence.
  - unfold stx_is. destruct ps; reflexivity.
Qed.
Lemma not_wild : forall lits p, wf lits p -> p <> PWild -> stx_is "_" (pobj p) = false.
Proof.
  intros lits p H N. inversion H; subst; cbn [pobj]; try reflexivity; try congruence.
  - apply stx_is_sym. apply special_spec; auto.
  - destruct d; cbn in H0; try contradiction; try reflexivity. apply stx_is_sym. apply special_spec; tauto.
  - unfold stx_is. destruct ps; cbn; [destruct tl as [t|]; [|reflexivity]|reflexivity].
    destruct (H1 t eq_refl) as [_ [_ N']]. congruence.
  - unfold stx_is. destruct ps; reflexivity.
Qed.
Lemma variablep_pobj : forall lits p, wf lits p -> (forall x, p <> PVar x) -> p <> PWild -> variablep lits (pobj p) = false.
Proof.
  intros lits p H N N2. inversion H; subst; cbn [pobj]; try reflexivity; try congruence.
  - apply variablep_lit; auto.
  - destruct ps; cbn; [destruct tl as [t|]; [|reflexivity]|reflexivity].
    destruct (H1 t eq_refl) as [_ [_ N']]. congruence.
  - destruct ps; reflexivity.
Qed.

(** fuel *)
Fixpoint psize (p : pat) : nat :=
  let tail t := match t with Some t => psize t | None => 0 end in
  let fix sum ps := match ps with [] => 0 | p :: r => S (psize p) + sum r end in
  match p with
  | PWild | PVar _ | PLit _ => 2
  | PList ps tl => 4 + sum ps + tail tl
  | PEll ps p qs tl => 8 + sum ps + psize p + sum qs + tail tl
  | PVec ps => 4 + sum ps
  | PVecEll ps p qs => 6 + sum ps + psize p + sum qs
  end.
Fixpoint lsize (ps : list pat) : nat := match ps with [] => 0 | p :: r => S (psize p) + lsize r end.
Definition tsize (tl : option pat) : nat := match tl with Some t => psize t | None => 0 end.
Lemma psize_list : forall ps tl, psize (PList ps tl) = 4 + lsize ps + tsize tl.
Proof.
  reflexivity.
Qed.
Lemma psize_ell : forall ps p qs tl, psize (PEll ps p qs tl) = 8 + lsize ps + psize p + lsize qs + tsize tl.
Proof.
  intros. cbn [psize]. unfold tsize.
  assert (E : forall l, (fix sum ps := match ps with [] => 0 | p :: r => S (psize p) + sum r end) l = lsize l)
    by (induction l; cbn; auto).
  rewrite !E. reflexivity.
Qed.
Lemma psize_vec : forall ps, psize (PVec ps) = 4 + lsize ps.
Proof. intros. cbn [psize]. f_equal. Qed.
Lemma psize_vecell : forall ps p qs, psize (PVecEll ps p qs) = 6 + lsize ps + psize p + lsize qs.
Proof.
  intros. cbn [psize].
  assert (E : forall l, (fix sum ps := match ps with [] => 0 | p :: r => S (psize p) + sum r end) l = lsize l)
    by (induction l; cbn; auto).
  rewrite !E. reflexivity.
Qed.
Lemma lsize_in : forall ps p, In p ps -> S (psize p) <= lsize ps.
Proof. induction ps; cbn; intros; [contradiction|]. destruct H; subst; [lia|]. apply IHps in H. lia. Qed.
Lemma psize_pos : forall p, 2 <= psize p.
Proof. destruct p; cbn [psize]; lia. Qed.
Global Opaque psize.

(** ** get-pattern-vars *)
Definition ocat {A} (a b : option (list A)) : option (list A) :=
  match a, b with Some x, Some y => Some (x ++ y) | _, _ => None end.
Definition gvecvars lits (f depth : nat) : list obj -> option (list (obj * nat)) :=
  fix go (v : list obj) : option (list (obj * nat)) :=
    match v with
    | [] => Some []
    | x :: r =>
        match r with
        | y :: r' =>
            if stx_is "..." y then ocat (gvars lits f (S depth) x) (go r')
            else ocat (gvars lits f depth x) (go r)
        | [] => ocat (gvars lits f depth x) (Some [])
        end
    end.
Lemma gvars_S : forall lits f depth p, gvars lits (S f) depth p =
  if stx_null p then Some [] else
  match stx_pair p with
  | Some (hd, tl) =>
      match (match stx_pair tl with
             | Some (next, after) => if stx_is "..." next then Some after else None
             | None => None end) with
      | Some after => ocat (gvars lits f (S depth) hd) (gvars lits f depth (to_stx after))
      | None => ocat (gvars lits f depth hd) (gvars lits f depth (to_stx tl))
      end
  | None =>
      match p with
      | OSyntax e _ =>
          match vec_elems e with
          | Some v => gvecvars lits f depth v
          | None =>
              if stx_is "_" p then Some []
              else if variablep lits p then Some [(e, depth)]
              else Some []
          end
      | _ => None
      end
  end.
Proof. reflexivity. Qed.

Lemma vars_spec : forall lits p, wf lits p -> forall f depth, psize p <= f ->
  gvars lits f depth (pobj p) = Some (vars depth p).
Proof.
  intros lits.
  (* the loop over the elements of a list *)
  assert (SEQ : forall ps t, Forall (fun p => wf lits p /\ forall f depth, psize p <= f -> gvars lits f depth (pobj p) = Some (vars depth p)) ps ->
    okend t -> forall rest f depth k, Forall (fun x => syntaxp x = true) rest ->
    match rest with x :: _ => stx_is "..." x = false | [] => match stx_pair t with Some (a, _) => stx_is "..." a = false | None => True end end ->
    lsize ps + k <= f -> exists g, k <= g /\
    gvars lits f depth (rem (map pobj ps ++ rest) t) =
      match ps with [] => gvars lits g depth (rem rest t) | _ => ocat (Some (flat_map (vars depth) ps)) (gvars lits g depth (rem rest t)) end).
  { induction ps as [|p ps IH]; intros t HF Ht rest f depth k Hr Hd Hs.
    - exists f. split; [cbn in Hs; lia | reflexivity].
    - inversion HF as [|? ? [Wp Hp] HF']; subst. cbn [lsize] in Hs. destruct f as [|f]; [lia|].
      destruct (IH t HF' Ht rest f depth k Hr Hd ltac:(lia)) as [g [Hg E]].
      exists g. split; auto.
      rewrite gvars_S. cbn [map app]. change (stx_null (rem (pobj p :: map pobj ps ++ rest) t)) with false. cbv iota.
      rewrite stx_pair_rem. cbv iota beta.
      assert (ND : match stx_pair (chain (map pobj ps ++ rest) t) with
                   | Some (next, after) => if stx_is "..." next then Some after else None
                   | None => None end = None).
      { destruct ps as [|p2 ps].
        - cbn [map app]. destruct rest as [|x rest]; cbn [chain fold_right stx_pair].
          + destruct (stx_pair t) as [[a d]|]; [rewrite Hd|]; reflexivity.
          + rewrite Hd. reflexivity.
        - cbn [map app chain fold_right stx_pair]. inversion HF' as [|? ? [W2 _] _]; subst.
          rewrite (not_dots lits) by auto. reflexivity. }
      rewrite ND. rewrite Hp by lia.
      rewrite to_stx_rem; auto. 2:{ apply Forall_app; split; auto using map_pobj_syntax. }
      rewrite E. destruct ps as [|p2 ps].
      + cbn [flat_map]. rewrite app_nil_r. reflexivity.
      + cbn [ocat]. destruct (gvars lits g depth (rem rest t)); auto. cbn [ocat]. rewrite app_assoc. reflexivity. }
  intros p. induction p using pat_ind_strong; intros W f depth Hs.
  - destruct f; [pose proof (Nat.le_trans _ _ _ (psize_pos _) Hs); lia|]. reflexivity.
  - destruct f; [pose proof (Nat.le_trans _ _ _ (psize_pos _) Hs); lia|]. inversion W; subst. rewrite gvars_S. cbn [pobj stx_null stx_pair vec_elems].
    rewrite stx_is_sym by (apply special_spec; auto). rewrite variablep_sym by auto. reflexivity.
  - destruct f; [pose proof (Nat.le_trans _ _ _ (psize_pos _) Hs); lia|]. inversion W; subst. rewrite gvars_S. cbn [pobj].
    rewrite variablep_lit by auto.
    destruct d; cbn in H0; try contradiction; cbn [stx_null stx_pair vec_elems vars]; try reflexivity.
    destruct (stx_is "_" (OSyntax (OSym name) OFalse)); reflexivity.
  - inversion W as [| | |? ? WF WT| | |]; subst. rewrite psize_list in Hs.
    assert (HT : forall g, 2 <= g -> tsize tl <= g -> gvars lits g depth (rem [] (tailobj tl)) = Some (match tl with Some t => vars depth t | None => [] end)).
    { intros g Hg Hg'. destruct tl as [t|].
      - cbn [tailobj]. specialize (H0 t eq_refl (proj1 (WT t eq_refl)) g depth Hg'). rewrite <- H0. f_equal.
        cbn [rem]. pose proof (pobj_syntax t). destruct (pobj t); cbn in *; congruence.
      - destruct g; [lia|]. reflexivity. }
    assert (ST : match stx_pair (tailobj tl) with Some (a, _) => stx_is "..." a = false | None => True end).
    { destruct tl as [t|]; cbn; auto. destruct (WT t eq_refl) as [Wt [St _]].
      destruct t; cbn in St; try contradiction; cbn; auto.
      inversion Wt; subst. destruct d; cbn in *; auto; contradiction. }
    assert (HF : Forall (fun p => wf lits p /\ forall f depth, psize p <= f -> gvars lits f depth (pobj p) = Some (vars depth p)) ps).
    { clear - WF H. induction WF; constructor; inversion H; subst; auto. }
    destruct (SEQ ps (tailobj tl) HF (tailobj_ok tl) [] f depth (2 + tsize tl) (Forall_nil _) ST ltac:(lia)) as [g [Hg E]].
    rewrite app_nil_r in E.
    destruct ps as [|p ps].
    + destruct tl as [t|]; [destruct (WT t eq_refl) as [_ [_ N]]; congruence|].
      destruct f; [lia|]. reflexivity.
    + change (pobj (PList (p :: ps) tl)) with (rem (map pobj (p :: ps)) (tailobj tl)). rewrite E, HT by lia. reflexivity.
  - inversion W as [| | | |? ? ? ? WF Wp WQ WT| |]; subst. rewrite psize_ell in Hs.
    assert (HT : forall g, 2 <= g -> tsize tl <= g -> gvars lits g depth (rem [] (tailobj tl)) = Some (match tl with Some t => vars depth t | None => [] end)).
    { intros g Hg Hg'. destruct tl as [t|].
      - cbn [tailobj]. specialize (H1 t eq_refl (proj1 (WT t eq_refl)) g depth Hg'). rewrite <- H1. f_equal.
        cbn [rem]. pose proof (pobj_syntax t). destruct (pobj t); cbn in *; congruence.
      - destruct g; [lia|]. reflexivity. }
    assert (ST : match stx_pair (tailobj tl) with Some (a, _) => stx_is "..." a = false | None => True end).
    { destruct tl as [t|]; cbn; auto. destruct (WT t eq_refl) as [Wt St].
      destruct t; cbn in St; try contradiction; cbn; auto.
      inversion Wt; subst. destruct d; cbn in *; auto; contradiction. }
    assert (HF : forall l, Forall (fun p => wf lits p -> forall f depth, psize p <= f -> gvars lits f depth (pobj p) = Some (vars depth p)) l -> Forall (wf lits) l ->
      Forall (fun p => wf lits p /\ forall f depth, psize p <= f -> gvars lits f depth (pobj p) = Some (vars depth p)) l).
    { clear. intros l HA HB. induction HB; constructor; inversion HA; subst; auto. }
    assert (Hq : Forall (fun x => syntaxp x = true) (pobj p :: DOTS :: map pobj qs)).
    { constructor; [apply pobj_syntax|]. constructor; [reflexivity|]. apply map_pobj_syntax. }
    destruct (SEQ ps (tailobj tl) (HF ps H WF) (tailobj_ok tl) (pobj p :: DOTS :: map pobj qs) f depth
                (8 + psize p + lsize qs + tsize tl) Hq (not_dots lits p Wp) ltac:(lia)) as [g [Hg E]].
    destruct g as [|g]; [lia|].
    destruct (SEQ qs (tailobj tl) (HF qs H0 WQ) (tailobj_ok tl) [] g depth (2 + tsize tl) (Forall_nil _) ST ltac:(lia)) as [g2 [Hg2 E2]].
    rewrite app_nil_r in E2.
    assert (E3 : gvars lits (S g) depth (rem (pobj p :: DOTS :: map pobj qs) (tailobj tl)) =
       Some (vars (S depth) p ++ flat_map (vars depth) qs ++ match tl with Some t => vars depth t | None => [] end)).
    { rewrite gvars_S. change (stx_null (rem (pobj p :: DOTS :: map pobj qs) (tailobj tl))) with false. cbv iota.
      rewrite stx_pair_rem. cbn [chain fold_right stx_pair]. change (stx_is "..." DOTS) with true. cbv iota.
      fold (chain (map pobj qs) (tailobj tl)).
      rewrite to_stx_rem by (auto using map_pobj_syntax, tailobj_ok). rewrite E2, HT by lia.
      rewrite IHp by (auto; lia). destruct qs; reflexivity. }
    change (pobj (PEll ps p qs tl)) with (OSyntax (chain (map pobj ps ++ pobj p :: DOTS :: map pobj qs) (tailobj tl)) OFalse).
    replace (OSyntax (chain (map pobj ps ++ pobj p :: DOTS :: map pobj qs) (tailobj tl)) OFalse)
      with (rem (map pobj ps ++ pobj p :: DOTS :: map pobj qs) (tailobj tl)) by (destruct ps; reflexivity).
    rewrite E, E3. destruct ps; reflexivity.
  - inversion W as [| | | | |? WF|]; subst. rewrite psize_vec in Hs. destruct f as [|f]; [lia|].
    rewrite gvars_S. cbn [pobj stx_null stx_pair vec_elems vars].
    assert (Hs' : forall p, In p ps -> psize p <= f) by (intros p Hp; apply lsize_in in Hp; lia).
    clear Hs. induction ps as [|p ps IH]; [reflexivity|].
    inversion H; subst. inversion WF; subst. cbn [map].
    destruct ps as [|p2 ps].
    + cbn [map gvecvars flat_map]. rewrite H2 by (auto; apply Hs'; left; auto). reflexivity.
    + cbn [map]. change (gvecvars lits f depth (pobj p :: pobj p2 :: map pobj ps)) with
        (if stx_is "..." (pobj p2) then ocat (gvars lits f (S depth) (pobj p)) (gvecvars lits f depth (map pobj ps))
         else ocat (gvars lits f depth (pobj p)) (gvecvars lits f depth (map pobj (p2 :: ps)))).
      rewrite (not_dots lits) by (inversion H5; auto).
      rewrite H2 by (auto; apply Hs'; left; auto).
      rewrite IH; [reflexivity|auto|constructor; auto|auto|]. intros; apply Hs'; right; auto.
  - inversion W as [| | | | | |? ? WF Wp]; subst. rewrite psize_vecell in Hs. destruct f as [|f]; [lia|].
    rewrite gvars_S. cbn [pobj stx_null stx_pair vec_elems vars map flat_map]. rewrite app_nil_r.
    assert (Hs' : forall p, In p ps -> psize p <= f) by (intros q Hq; apply lsize_in in Hq; lia).
    assert (Ep : gvars lits f (S depth) (pobj p) = Some (vars (S depth) p)) by (apply IHp; auto; lia).
    clear Hs. induction ps as [|q ps IH].
    + cbn [map app gvecvars]. change (stx_is "..." DOTS) with true. cbv iota.
      rewrite Ep. cbn [ocat flat_map app]. rewrite app_nil_r. reflexivity.
    + inversion H; subst. inversion WF; subst.
      assert (E : exists y r, map pobj ps ++ [pobj p; DOTS] = y :: r /\ stx_is "..." y = false).
      { destruct ps as [|q2 ps].
        - exists (pobj p), [DOTS]. split; auto. apply (not_dots lits); auto.
        - exists (pobj q2), (map pobj ps ++ [pobj p; DOTS]). split; auto. inversion H6; subst. apply (not_dots lits); auto. }
      destruct E as [y [r [E1 E2]]].
      cbn [map app]. rewrite E1. change (gvecvars lits f depth (pobj q :: y :: r)) with
        (if stx_is "..." y then ocat (gvars lits f (S depth) (pobj q)) (gvecvars lits f depth r)
         else ocat (gvars lits f depth (pobj q)) (gvecvars lits f depth (y :: r))).
      rewrite E2, <- E1. rewrite IH; auto. 2:{ constructor; auto. } 2:{ intros; apply Hs'; right; auto. }
      rewrite H3 by (auto; apply Hs'; left; auto). cbn [ocat flat_map]. rewrite app_assoc. reflexivity.
Qed.

(** ** gen-match/expr *)
Definition geach lits (f : nat) (l : list (obj * obj)) (k : mres (list obj)) : mres (list obj) :=
  fold_right (fun px r => mapp (gmatch lits f (fst px) (snd px)) r) k l.
Lemma gmatch_S : forall lits f p e, gmatch lits (S f) p e =
  match stx_pair p with
  | Some _ =>
      match gcount p 0 0 false with
      | None => MErr
      | Some (be, ae, ell, prop) =>
          if negb ell || (ae =? 0) then gseq lits f be ell prop p 0 e
          else
            let '(ppre, ppost, _) := split_loop (Z.of_nat ae) prop p in
            let '(pre, post, m) := split_loop (Z.of_nat ae) prop e in
            if (m =? Z.of_nat ae)%Z
            then mapp (gmatch lits f (to_stx (of_list ppre)) (of_list pre)) (gmatch lits f (to_stx ppost) post)
            else MNo
      end
  | None =>
      match p with
      | OSyntax pe _ =>
          match vec_elems pe with
          | Some v => gvec lits f v e
          | None => gdatum lits p e
          end
      | _ => gdatum lits p e
      end
  end.
Proof. reflexivity. Qed.
Lemma gseq_S : forall lits f be ell prop pat idx e, gseq lits (S f) be ell prop pat idx e =
  if (if prop then idx =? be else S idx =? be)
  then gdatum lits (if prop then OSyntax ONull OFalse else pat) e
  else
    match stx_pair pat with
    | None => MErr
    | Some (hp, tl) =>
        if ell && (S idx =? be) then
          if stx_list e then
            if stx_null e then
              match gvars lits f 0 hp with Some vs => MOk (repeat ONull (length vs)) | None => MFuel end
            else match stx_to_list e with
                 | Some l => transpose (mmap (gmatch lits f hp) l)
                 | None => MNo
                 end
          else MNo
        else if stx_is "_" hp then
          if stx_null e then MNo
          else match stx_pair e with Some (_, d) => gseq lits f be ell prop (to_stx tl) (S idx) d | None => MErr end
        else
          match stx_pair e with
          | None => MNo
          | Some (a, d) =>
              if variablep lits hp then mcons a (gseq lits f be ell prop (to_stx tl) (S idx) d)
              else if match stx_pair hp with Some _ => true | None => stx_vector hp end
              then mapp (gmatch lits f hp a) (gseq lits f be ell prop (to_stx tl) (S idx) d)
              else match gmatch lits f hp a with MOk _ => gseq lits f be ell prop (to_stx tl) (S idx) d | r => r end
          end
    end.
Proof. reflexivity. Qed.
Lemma gvec_S : forall lits f v e, gvec lits (S f) v e =
  match gvcount v 0 0 false with
  | None => MErr
  | Some (be, ae, ell) =>
      if stx_vector e then
        match e with
        | OSyntax x _ =>
            match vec_elems x with
            | Some w =>
                if ell then
                  if be + ae - 1 <=? length w then
                    let rep := length w - (be + ae - 1) in
                    geach lits f (combine (firstn (be - 1) v) (firstn (be - 1) w))
                      (mapp
                         (if rep =? 0
                          then match gvars lits f 0 (nth (be - 1) v ONull) with
                               | Some vs => MOk (repeat ONull (length vs)) | None => MFuel end
                          else transpose (mmap (gmatch lits f (nth (be - 1) v ONull))
                                               (firstn rep (skipn (be - 1) w))))
                         (geach lits f (combine (firstn ae v) (firstn ae (skipn (be - 1 + rep) w))) (MOk [])))
                  else MNo
                else
                  if length w =? length v then geach lits f (combine v w) (MOk []) else MNo
            | None => MErr
            end
        | _ => MErr
        end
      else MNo
  end.
Proof. reflexivity. Qed.

Lemma mmap_ext : forall f g l, (forall x, f x = g x) -> mmap f l = mmap g l.
Proof. induction l; cbn; intros; auto. rewrite H, IHl; auto. Qed.

Section Agree.
Variable lits : list obj.
Definition agrees (p : pat) : Prop := forall f e, psize p <= f -> gmatch lits f (pobj p) e = amatch p e.
Definition tail_of (tl : option pat) (e : obj) : mres (list obj) :=
  match tl with None => if stx_null e then MOk [] else MNo | Some t => amatch t e end.

Lemma gcount_pre : forall ps t be, Forall (wf lits) ps ->
  gcount (chain (map pobj ps) t) be 0 false = gcount t (be + length ps) 0 false.
Proof.
  induction ps as [|p ps IH]; intros t be H.
  - cbn [map chain fold_right length]. rewrite Nat.add_0_r. reflexivity.
  - inversion H; subst. cbn [map chain fold_right length gcount]. rewrite (not_dots lits) by auto.
    fold (chain (map pobj ps) t). rewrite IH by auto. f_equal. lia.
Qed.
Lemma gcount_post : forall ps t be ae, Forall (wf lits) ps ->
  gcount (chain (map pobj ps) t) be ae true = gcount t be (ae + length ps) true.
Proof.
  induction ps as [|p ps IH]; intros t be ae H.
  - cbn [map chain fold_right length]. rewrite Nat.add_0_r. reflexivity.
  - inversion H; subst. cbn [map chain fold_right length gcount]. rewrite (not_dots lits) by auto.
    fold (chain (map pobj ps) t). rewrite IH by auto. f_equal. lia.
Qed.
Lemma gcount_tail : forall tl be ae ell, (forall t, tl = Some t -> wf lits t /\ simple t) ->
  gcount (tailobj tl) be ae ell =
  if ell then Some (be, ae + tailcount tl, ell, isnone tl) else Some (be + tailcount tl, ae, ell, isnone tl).
Proof.
  intros [t|] be ae ell H; cbn [tailobj tailcount isnone].
  - destruct (H t eq_refl) as [W St]. destruct t; cbn in St; try contradiction; cbn.
    + destruct ell; repeat f_equal; lia.
    + destruct ell; repeat f_equal; lia.
    + inversion W; subst. destruct d; cbn in H1; try contradiction; destruct ell; cbn; repeat f_equal; lia.
  - cbn. rewrite !Nat.add_0_r. destruct ell; reflexivity.
Qed.
Lemma chain_app : forall a b t, chain (a ++ b) t = chain a (chain b t).
Proof. intros. unfold chain. apply fold_right_app. Qed.

Lemma gdatum_simple : forall t e, wf lits t -> simple t -> gdatum lits (pobj t) e = amatch t e.
Proof.
  intros t e W St. destruct t; cbn in St; try contradiction.
  - reflexivity.
  - inversion W; subst. unfold gdatum. cbn [pobj stx_null]. rewrite stx_is_sym by (apply special_spec; auto).
    rewrite variablep_sym by auto. reflexivity.
  - inversion W; subst. unfold gdatum. cbn [pobj amatch]. rewrite variablep_lit by auto.
    destruct d; cbn in H0; try contradiction; try reflexivity.
    cbn [stx_null]. rewrite stx_is_sym by (apply special_spec; tauto). reflexivity.
Qed.

(** the elements before the end or the ellipsis *)
Lemma gseq_gen : forall be ell prop rest T k kf, Forall (fun x => syntaxp x = true) rest -> okend T ->
  forall ps, Forall (wf lits) ps -> Forall agrees ps -> forall idx,
  (forall f e, kf <= f -> gseq lits f be ell prop (rem rest T) (idx + length ps) e = k e) ->
  idx + length ps + (if ell || negb prop then 1 else 0) <= be ->
  forall f e, lsize ps + kf <= f ->
  gseq lits f be ell prop (rem (map pobj ps ++ rest) T) idx e = aseq amatch k ps e.
Proof.
  intros be ell prop rest T k kf Hr HT. induction ps as [|p ps IH]; intros WF AG idx HK Hbe f e Hf.
  - cbn [map app aseq]. cbn [length] in HK. rewrite Nat.add_0_r in HK. apply HK. cbn in Hf. lia.
  - inversion WF as [|? ? Wp WF']; subst. inversion AG as [|? ? Ap AG']; subst.
    cbn [lsize] in Hf. cbn [length] in Hbe, HK. destruct f as [|f]; [lia|].
    rewrite gseq_S.
    replace (if prop then idx =? be else S idx =? be) with false.
    2:{ symmetry. destruct prop; apply Nat.eqb_neq; destruct ell; cbn in Hbe; lia. }
    cbn [map app]. rewrite stx_pair_rem. cbv iota beta.
    replace (ell && (S idx =? be)) with false.
    2:{ symmetry. destruct ell; cbn [andb]; auto. apply Nat.eqb_neq. cbn in Hbe. lia. }
    rewrite to_stx_rem; auto. 2:{ apply Forall_app; split; auto using map_pobj_syntax. }
    assert (N : forall d, gseq lits f be ell prop (rem (map pobj ps ++ rest) T) (S idx) d = aseq amatch k ps d).
    { intros d. apply IH; auto.
      - intros f' e' Hf'. replace (S idx + length ps) with (idx + S (length ps)) by lia. apply HK; auto.
      - lia.
      - lia. }
    assert (Gp : forall x, gmatch lits f (pobj p) x = amatch p x) by (intros x; apply Ap; lia).
    destruct p as [|x|d|l tl|l p0 qs tl|l|l p0 qs].
    + cbn [pobj aseq]. change (stx_is "_" (OSyntax (OSym (s2b "_")) OFalse)) with true. cbv iota.
      destruct (stx_null e); auto. destruct (stx_pair e) as [[a d]|]; auto.
    + cbn [aseq]. rewrite (not_wild lits) by (auto; discriminate).
      destruct (stx_pair e) as [[a d]|]; auto. inversion Wp; subst.
      cbn [pobj]. rewrite variablep_sym by auto. rewrite N. reflexivity.
    + cbn [aseq]. rewrite (not_wild lits) by (auto; discriminate).
      destruct (stx_pair e) as [[a x]|]; auto. rewrite variablep_pobj by (auto; discriminate).
      rewrite Gp, N. inversion Wp as [| |? L| | | |]; subst. cbn [pobj].
      replace (match stx_pair (OSyntax d OFalse) with Some _ => true | None => stx_vector (OSyntax d OFalse) end) with false; auto.
      destruct d; cbn in L; try contradiction; reflexivity.
    + cbn [aseq]. rewrite (not_wild lits) by (auto; discriminate).
      destruct (stx_pair e) as [[a x]|]; auto. rewrite variablep_pobj by (auto; discriminate).
      rewrite Gp, N. inversion Wp as [| | |? ? WL WT| | |]; subst.
      destruct l as [|q l].
      * destruct tl as [t|]; [destruct (WT t eq_refl) as [_ [_ C]]; congruence|]. reflexivity.
      * reflexivity.
    + cbn [aseq]. rewrite (not_wild lits) by (auto; discriminate).
      destruct (stx_pair e) as [[a x]|]; auto. rewrite variablep_pobj by (auto; discriminate).
      rewrite Gp, N. destruct l; reflexivity.
    + cbn [aseq]. rewrite (not_wild lits) by (auto; discriminate).
      destruct (stx_pair e) as [[a x]|]; auto. rewrite variablep_pobj by (auto; discriminate).
      rewrite Gp, N. reflexivity.
    + cbn [aseq]. rewrite (not_wild lits) by (auto; discriminate).
      destruct (stx_pair e) as [[a x]|]; auto. rewrite variablep_pobj by (auto; discriminate).
      rewrite Gp, N. reflexivity.
Qed.

Lemma gseq_plain : forall ps tl, Forall (wf lits) ps -> Forall agrees ps ->
  (forall t, tl = Some t -> wf lits t /\ simple t) ->
  forall f e, lsize ps + 2 <= f ->
  gseq lits f (length ps + tailcount tl) false (isnone tl) (rem (map pobj ps) (tailobj tl)) 0 e = aseq amatch (tail_of tl) ps e.
Proof.
  intros ps tl WF AG WT f e Hf.
  rewrite <- (app_nil_r (map pobj ps)).
  apply gseq_gen with (kf := 2); auto.
  - apply tailobj_ok.
  - intros f' e' Hf'. destruct f' as [|f']; [lia|]. rewrite gseq_S. cbn [plus].
    destruct tl as [t|]; cbn [tailcount isnone tailobj tail_of].
    + rewrite Nat.add_comm. cbn [plus]. rewrite Nat.eqb_refl. destruct (WT t eq_refl) as [Wt St].
      rewrite <- gdatum_simple by auto. f_equal. cbn [rem]. pose proof (pobj_syntax t). destruct (pobj t); cbn in *; congruence.
    + rewrite Nat.add_0_r, Nat.eqb_refl. reflexivity.
  - destruct tl; cbn; lia.
Qed.
Lemma gseq_ell : forall ps p, Forall (wf lits) ps -> Forall agrees ps -> wf lits p -> agrees p ->
  forall f e, lsize ps + psize p + 2 <= f ->
  gseq lits f (length ps + 1) true true (rem (map pobj ps ++ [pobj p; DOTS]) ONull) 0 e = aseq amatch (aell amatch p) ps e.
Proof.
  intros ps p WF AG Wp Ap f e Hf.
  apply gseq_gen with (kf := 2 + psize p); auto.
  - constructor; [apply pobj_syntax|]. constructor; [reflexivity|constructor].
  - left; reflexivity.
  - intros f' e' Hf'. destruct f' as [|f']; [lia|]. rewrite gseq_S. cbn [plus].
    replace (length ps =? length ps + 1) with false by (symmetry; apply Nat.eqb_neq; lia).
    rewrite stx_pair_rem. replace (S (length ps) =? length ps + 1) with true by (symmetry; apply Nat.eqb_eq; lia).
    cbn [andb]. unfold aell. rewrite vars_spec by (auto; lia).
    destruct (stx_list e'); auto. destruct (stx_null e'); auto. destruct (stx_to_list e'); auto.
    rewrite (mmap_ext (gmatch lits f' (pobj p)) (amatch p)); auto. intros; apply Ap; lia.
  - lia.
Qed.

(** splitting the pattern *)
Lemma split_pat : forall (es : list obj) (t : obj) (n : Z) (prop : bool) (c : Z), Forall (fun x => syntaxp x = true) es -> stx_pair t = None ->
  (if prop then (if stx_null t then 0 else -1)%Z else 1%Z) = c -> (c <= n)%Z ->
  forall k, Z.of_nat k = (n - c)%Z -> k <= length es ->
  split_loop n prop (chain es t) = (firstn (length es - k) es, chain (skipn (length es - k) es) t, n).
Proof.
  induction es as [|a es IH]; intros t n prop c HF Ht Hc Hn k Hk Hl.
  - cbn in Hl. assert (k = 0) by lia. subst k. cbn [chain fold_right length firstn skipn Nat.sub].
    assert (n = c) by lia. subst n. subst c. clear - Ht.
    destruct t; cbn in Ht; try discriminate; try reflexivity. destruct t1; try discriminate; reflexivity.
  - inversion HF; subst. cbn [chain fold_right]. fold (chain es t). cbn [split_loop].
    cbn [length] in Hl.
    destruct (Nat.eq_dec k (S (length es))).
    + (* all the elements go to the second part *)
      subst k. replace (length (a :: es) - S (length es)) with 0 by (cbn; lia). cbn [firstn skipn].
      clear IH.
      assert (E : forall es', (Z.of_nat (length es') + (if prop then if stx_null t then 0 else -1 else 1) <= n)%Z ->
         split_loop n prop (chain es' t) = ([], chain es' t, (Z.of_nat (length es') + (if prop then if stx_null t then 0 else -1 else 1))%Z)).
      { induction es' as [|b es' IHe]; intros L.
        - cbn [chain fold_right length Z.of_nat Z.add]. clear - Ht. destruct t; cbn in Ht; try discriminate; try reflexivity.
          destruct t1; try discriminate; reflexivity.
        - cbn [chain fold_right]. fold (chain es' t). cbn [split_loop]. cbn [length] in L. rewrite IHe by lia.
          match goal with |- context [(?x <? n)%Z] => replace (x <? n)%Z with true by (symmetry; apply Z.ltb_lt; lia) end.
          cbn [length]. f_equal. lia. }
      rewrite E by lia.
      match goal with |- context [(?x <? n)%Z] => replace (x <? n)%Z with true by (symmetry; apply Z.ltb_lt; lia) end.
      f_equal. lia.
    + rewrite (IH t n prop _ H2 Ht eq_refl Hn k Hk ltac:(lia)).
      rewrite Z.ltb_irrefl. cbn [length]. replace (S (length es) - k) with (S (length es - k)) by lia. reflexivity.
Qed.

Lemma split_stx : forall n prop a d l pre post m, split_loop n prop (OPair a d) = (pre, post, m) -> pre <> [] ->
  split_loop n prop (OSyntax (OPair a d) l) = (pre, post, m).
Proof.
  intros n prop a d l pre post m E N. cbn [split_loop] in *. destruct (split_loop n prop d) as [[pr po] m0].
  destruct (m0 <? n)%Z; auto. inversion E; subst. congruence.
Qed.
Lemma of_list_chain : forall l, of_list l = chain l ONull.
Proof. induction l as [|a l IH]; [reflexivity|]. cbn [of_list chain fold_right]; f_equal; exact IH. Qed.

Lemma amatch_ell_S : forall ps p qs tl e, 0 < length qs + tailcount tl ->
  amatch (PEll ps p qs tl) e =
  let n := Z.of_nat (length qs + tailcount tl) in
  let '(pre, post, m) := split_loop n (isnone tl) e in
  if (m =? n)%Z then mapp (aseq amatch (aell amatch p) ps (of_list pre)) (aseq amatch (tail_of tl) qs post) else MNo.
Proof. intros. cbn [amatch]. replace (length qs + tailcount tl =? 0) with false by (symmetry; apply Nat.eqb_neq; lia). reflexivity. Qed.

Lemma gmatch_end : forall ps p, Forall (wf lits) ps -> Forall agrees ps -> wf lits p -> agrees p ->
  forall f e, lsize ps + psize p + 3 <= f ->
  gmatch lits f (OSyntax (chain (map pobj ps ++ [pobj p; DOTS]) ONull) OFalse) e = aseq amatch (aell amatch p) ps e.
Proof.
  intros ps p WF AG Wp Ap f e Hf. destruct f as [|f]; [lia|]. rewrite gmatch_S.
  assert (EP : exists x y, stx_pair (OSyntax (chain (map pobj ps ++ [pobj p; DOTS]) ONull) OFalse) = Some (x, y))
    by (destruct ps; cbn; eauto).
  destruct EP as [x [y EP]]. rewrite EP.
  assert (EC : gcount (OSyntax (chain (map pobj ps ++ [pobj p; DOTS]) ONull) OFalse) 0 0 false = Some (length ps + 1, 0, true, true)).
  { transitivity (gcount (chain (map pobj ps ++ [pobj p; DOTS]) ONull) 0 0 false); [destruct ps; reflexivity|].
    rewrite chain_app. rewrite gcount_pre by auto. cbn [chain fold_right gcount]. rewrite (not_dots lits) by auto.
    change (stx_is "..." DOTS) with true. cbn [plus]. rewrite Nat.add_1_r. reflexivity. }
  rewrite EC. cbn [negb orb Nat.eqb].
  rewrite <- gseq_ell with (f := f) by (auto; lia). f_equal. destruct ps; reflexivity.
Qed.

Lemma gmatch_plain : forall ps tl, Forall (wf lits) ps -> Forall agrees ps ->
  (forall t, tl = Some t -> wf lits t /\ simple t) ->
  forall f e, lsize ps + 3 + tsize tl <= f -> gmatch lits f (rem (map pobj ps) (tailobj tl)) e = aseq amatch (tail_of tl) ps e.
Proof.
  intros ps tl WF AG WT f e Hf. destruct f as [|f]; [lia|].
  destruct ps as [|p ps].
  - cbn [map rem aseq]. destruct tl as [t|]; cbn [tailobj tail_of].
    + destruct (WT t eq_refl) as [Wt St].
      rewrite <- gdatum_simple by auto. pose proof (pobj_syntax t) as PS. rewrite gmatch_S.
      destruct t; cbn in St; try contradiction; try reflexivity. inversion Wt; subst.
      destruct d; cbn in H0; try contradiction; reflexivity.
    + rewrite gmatch_S. reflexivity.
  - rewrite gmatch_S.
    change (stx_pair (rem (map pobj (p :: ps)) (tailobj tl))) with (Some (pobj p, chain (map pobj ps) (tailobj tl))).
    cbv iota.
    change (gcount (rem (map pobj (p :: ps)) (tailobj tl)) 0 0 false) with (gcount (chain (map pobj (p :: ps)) (tailobj tl)) 0 0 false).
    rewrite gcount_pre, gcount_tail by auto. cbn [plus negb orb].
    apply gseq_plain; auto. lia.
Qed.
Lemma gvcount_pre : forall ps r be, Forall (wf lits) ps ->
  gvcount (map pobj ps ++ r) be 0 false = gvcount r (be + length ps) 0 false.
Proof.
  induction ps as [|p ps IH]; intros r be H.
  - cbn. rewrite Nat.add_0_r. reflexivity.
  - inversion H; subst. cbn [map app gvcount length]. rewrite (not_dots lits) by auto. rewrite IH by auto. f_equal. lia.
Qed.
Lemma geach_avec : forall ps f k es, Forall agrees ps -> lsize ps <= f -> length ps <= length es ->
  geach lits f (combine (map pobj ps) es) k = avec amatch ps es k.
Proof.
  induction ps as [|p ps IH]; intros f k es AG Hf HL; [reflexivity|].
  destruct es as [|e es]; [cbn in HL; lia|]. inversion AG; subst. cbn [lsize] in Hf.
  cbn [map combine geach fold_right fst snd avec]. rewrite H1 by lia. f_equal. apply IH; auto. lia. cbn in HL. lia.
Qed.

Lemma avec_firstn : forall ps es k, avec amatch ps (firstn (length ps) es) k = avec amatch ps es k.
Proof. induction ps; destruct es; cbn; intros; auto. rewrite IHps. auto. Qed.
Lemma mapp_nil : forall r, mapp r (MOk []) = r.
Proof. destruct r; cbn; auto. rewrite app_nil_r. auto. Qed.

Theorem gmatch_amatch : forall p, wf lits p -> agrees p.
Proof.
  intros p. induction p using pat_ind_strong; intros W f e Hs.
  - destruct f; [pose proof (Nat.le_trans _ _ _ (psize_pos _) Hs); lia|]. reflexivity.
  - destruct f; [pose proof (Nat.le_trans _ _ _ (psize_pos _) Hs); lia|]. rewrite gmatch_S.
    rewrite <- gdatum_simple by (auto; exact Logic.I). reflexivity.
  - destruct f; [pose proof (Nat.le_trans _ _ _ (psize_pos _) Hs); lia|]. rewrite gmatch_S.
    rewrite <- gdatum_simple by (auto; exact Logic.I). inversion W; subst.
    destruct d; cbn in H0; try contradiction; reflexivity.
  - inversion W as [| | |? ? WF WT| | |]; subst. rewrite psize_list in Hs.
    assert (AG : Forall agrees ps) by (clear - WF H; induction WF; constructor; inversion H; subst; auto).
    change (amatch (PList ps tl) e) with (aseq amatch (tail_of tl) ps e).
    rewrite <- gmatch_plain with (f := f); auto.
    + f_equal. destruct ps as [|p ps]; [|reflexivity]. destruct tl as [t|]; [|reflexivity].
      destruct (WT t eq_refl) as [_ [_ C]]; congruence.
    + intros t Et. destruct (WT t Et) as [A [B _]]; auto.
    + lia.
  - inversion W as [| | | |? ? ? ? WF Wp WQ WT| |]; subst. rewrite psize_ell in Hs.
    assert (AG : forall l, Forall (fun p => wf lits p -> agrees p) l -> Forall (wf lits) l -> Forall agrees l).
    { clear. intros l HA HB. induction HB; constructor; inversion HA; subst; auto. }
    specialize (AG ps H WF) as AP. specialize (AG qs H0 WQ) as AQ. clear AG H H0.
    specialize (IHp Wp).
    change (pobj (PEll ps p qs tl)) with (OSyntax (chain (map pobj ps ++ pobj p :: DOTS :: map pobj qs) (tailobj tl)) OFalse).
    destruct (Nat.eq_dec (length qs + tailcount tl) 0) as [Z0|NZ].
    + destruct qs; [|cbn in Z0; lia]. destruct tl; [cbn in Z0; lia|].
      cbn [map tailobj]. rewrite gmatch_end by (auto; lia). reflexivity.
    + rewrite amatch_ell_S by lia. destruct f as [|f]; [lia|]. rewrite gmatch_S.
      assert (EP : exists x y, stx_pair (OSyntax (chain (map pobj ps ++ pobj p :: DOTS :: map pobj qs) (tailobj tl)) OFalse) = Some (x, y))
        by (destruct ps; cbn; eauto).
      destruct EP as [x [y EP]]. rewrite EP.
      assert (EC : gcount (OSyntax (chain (map pobj ps ++ pobj p :: DOTS :: map pobj qs) (tailobj tl)) OFalse) 0 0 false
                   = Some (length ps + 1, length qs + tailcount tl, true, isnone tl)).
      { transitivity (gcount (chain (map pobj ps ++ pobj p :: DOTS :: map pobj qs) (tailobj tl)) 0 0 false); [destruct ps; reflexivity|].
        rewrite chain_app. rewrite gcount_pre by auto. cbn [chain fold_right gcount]. rewrite (not_dots lits) by auto.
        change (stx_is "..." DOTS) with true. cbn [plus Nat.eqb]. cbv iota. fold (chain (map pobj qs) (tailobj tl)).
        rewrite gcount_post, gcount_tail by auto. cbn [plus]. rewrite Nat.add_1_r. reflexivity. }
      rewrite EC. replace (length qs + tailcount tl =? 0) with false by (symmetry; apply Nat.eqb_neq; lia).
      cbn [negb orb].
      assert (ESP : split_loop (Z.of_nat (length qs + tailcount tl)) (isnone tl)
                      (OSyntax (chain (map pobj ps ++ pobj p :: DOTS :: map pobj qs) (tailobj tl)) OFalse)
                    = (map pobj ps ++ [pobj p; DOTS], chain (map pobj qs) (tailobj tl), Z.of_nat (length qs + tailcount tl))).
      { assert (SP : split_loop (Z.of_nat (length qs + tailcount tl)) (isnone tl) (chain (map pobj ps ++ pobj p :: DOTS :: map pobj qs) (tailobj tl))
                   = (map pobj ps ++ [pobj p; DOTS], chain (map pobj qs) (tailobj tl), Z.of_nat (length qs + tailcount tl))).
        { replace (map pobj ps ++ pobj p :: DOTS :: map pobj qs) with ((map pobj ps ++ [pobj p; DOTS]) ++ map pobj qs)
            by (rewrite <- app_assoc; reflexivity).
          erewrite (split_pat _ (tailobj tl) _ (isnone tl) (if isnone tl then 0 else 1)%Z) with (k := length qs).
          - rewrite app_length, map_length.
            replace (length (map pobj ps ++ [pobj p; DOTS]) + length qs - length qs) with (length (map pobj ps ++ [pobj p; DOTS])) by lia.
            rewrite firstn_app, skipn_app, Nat.sub_diag, firstn_all, skipn_all. cbn [firstn skipn app].
            rewrite app_nil_r. reflexivity.
          - apply Forall_app; split; [apply Forall_app; split|]; auto using map_pobj_syntax.
            constructor; [apply pobj_syntax|]. constructor; [reflexivity|constructor].
          - destruct tl as [t|]; [|reflexivity]. destruct (WT t eq_refl) as [Wt St]. destruct t; cbn in St; try contradiction; try reflexivity.
            inversion Wt; subst. destruct d; cbn in *; try contradiction; reflexivity.
          - destruct tl; reflexivity.
          - destruct tl; cbn [isnone tailcount]; lia.
          - destruct tl; cbn [isnone tailcount]; lia.
          - rewrite app_length, map_length. lia. }
        destruct ps as [|p1 ps]; cbn [map app chain fold_right] in SP |- *; apply split_stx; auto; discriminate. }
      rewrite ESP. destruct (split_loop (Z.of_nat (length qs + tailcount tl)) (isnone tl) e) as [[pre post] m].
      destruct (m =? Z.of_nat (length qs + tailcount tl))%Z; auto.
      rewrite to_stx_rem; auto using map_pobj_syntax, tailobj_ok.
      rewrite gmatch_plain by (auto; lia).
      replace (to_stx (of_list (map pobj ps ++ [pobj p; DOTS]))) with (OSyntax (chain (map pobj ps ++ [pobj p; DOTS]) ONull) OFalse).
      rewrite gmatch_end by (auto; lia). reflexivity.
      rewrite of_list_chain, to_stx_rem.
      * destruct ps; reflexivity.
      * apply Forall_app; split; auto using map_pobj_syntax.
        constructor; [apply pobj_syntax|]. constructor; [reflexivity|constructor].
      * left; reflexivity.
  - inversion W as [| | | | |? WF|]; subst. rewrite psize_vec in Hs. destruct f as [|f]; [lia|].
    assert (AG : Forall agrees ps) by (clear - WF H; induction WF; constructor; inversion H; subst; auto).
    rewrite gmatch_S. cbn [pobj stx_pair vec_elems amatch]. destruct f as [|f]; [lia|]. rewrite gvec_S.
    rewrite <- (app_nil_r (map pobj ps)) at 1. rewrite gvcount_pre by auto. cbn [gvcount].
    unfold avector, stx_vector. destruct e; cbn [vec_elems]; auto.
    destruct (vec_elems e1) as [w|]; auto. rewrite map_length.
    destruct (length w =? length ps) eqn:EL; auto. apply Nat.eqb_eq in EL. apply geach_avec; auto; lia.
  - inversion W as [| | | | | |? ? WF Wp]; subst. rewrite psize_vecell in Hs. destruct f as [|f]; [lia|].
    assert (AG : Forall agrees ps) by (clear - WF H; induction WF; constructor; inversion H; subst; auto).
    rewrite gmatch_S. cbn [pobj stx_pair vec_elems amatch map]. destruct f as [|f]; [lia|]. rewrite gvec_S.
    rewrite gvcount_pre by auto. cbn [gvcount plus]. rewrite (not_dots lits) by auto.
    change (stx_is "..." DOTS) with true. cbn [Nat.eqb].
    unfold avector, stx_vector. destruct e; cbn [vec_elems]; auto.
    destruct (vec_elems e1) as [w|]; auto.
    replace (S (length ps) + 0 - 1) with (length ps) by lia. replace (S (length ps) - 1) with (length ps) by lia.
    destruct (length ps <=? length w) eqn:EL; auto. apply Nat.leb_le in EL. cbv zeta.
    rewrite firstn_app, map_length, Nat.sub_diag. cbn [firstn]. rewrite app_nil_r.
    rewrite firstn_all2 by (rewrite map_length; lia).
    rewrite geach_avec by (auto; try lia; rewrite firstn_length; lia).
    rewrite avec_firstn. f_equal. cbn [combine geach fold_right]. rewrite mapp_nil.
    rewrite app_nth2 by (rewrite map_length; lia). rewrite map_length, Nat.sub_diag. cbn [nth].
    rewrite vars_spec by (auto; lia).
    destruct (length w - length ps =? 0); auto.
    rewrite firstn_all2 by (rewrite skipn_length; lia).
    rewrite (mmap_ext (gmatch lits f (pobj p)) (amatch p)); auto. intros; apply (IHp Wp). lia.
Qed.
End Agree.

(** * The matcher on patterns agrees with the specification *)
Lemma vars_length : forall p d d', length (vars d p) = length (vars d' p).
Proof.
  assert (FM : forall ps, Forall (fun p => forall d d', length (vars d p) = length (vars d' p)) ps ->
    forall d d', length (flat_map (vars d) ps) = length (flat_map (vars d') ps)).
  { induction 1; intros d d'; cbn; auto. rewrite !app_length. rewrite (H d d'), (IHForall d d'). reflexivity. }
  intros p. induction p using pat_ind_strong; intros dd dd'; cbn [vars]; auto.
  - rewrite !app_length. rewrite (FM ps H dd dd'). destruct tl as [t|]; [rewrite (H0 t eq_refl dd dd')|]; reflexivity.
  - rewrite !app_length. rewrite (FM ps H dd dd'), (FM qs H0 dd dd'), (IHp (S dd) (S dd')).
    destruct tl as [t|]; [rewrite (H1 t eq_refl dd dd')|]; reflexivity.
  - rewrite !app_length. rewrite (FM ps H dd dd'), (FM qs H0 dd dd'), (IHp (S dd) (S dd')). auto.
Qed.
Lemma columns_length : forall n rows, length (columns n rows) = n.
Proof. intros. unfold columns. rewrite map_length, seq_length. auto. Qed.
Lemma pm_length_all :
  (forall p e bs, pm p e bs -> length bs = length (vars 0 p)) /\
  (forall ps es bs, pml ps es bs -> length bs = length (flat_map (vars 0) ps)) /\
  (forall p es rows, pmr p es rows -> Forall (fun r => length r = length (vars 0 p)) rows) /\
  (forall tl e bs, pmt tl e bs -> length bs = length (match tl with Some t => vars 0 t | None => [] end)).
Proof.
  apply pm_mutind; intros; cbn [vars flat_map]; auto; rewrite ?app_length, ?columns_length; try lia.
  - rewrite (vars_length p 1 0). lia.
  - rewrite (vars_length p 1 0). lia.
Qed.
Lemma pm_length : forall p e bs, pm p e bs -> length bs = length (vars 0 p).
Proof. apply pm_length_all. Qed.

Lemma pair_spine : forall e a d, stx_pair e = Some (a, d) -> forall es rest, spine d es rest -> spine e (a :: es) rest.
Proof.
  intros e a d H es rest SP. destruct e; cbn in H; try discriminate.
  - inversion H; subst. constructor; auto.
  - destruct e1; try discriminate. inversion H; subst. constructor; auto.
Qed.
Lemma spine_pair : forall e a es rest, spine e (a :: es) rest -> exists d, stx_pair e = Some (a, d) /\ spine d es rest.
Proof. intros e a es rest H. inversion H; subst; cbn; eauto. Qed.
Lemma nopair_spine : forall e, stx_pair e = None <-> forall x r, ~ spine e [x] r.
Proof.
  intros e. split.
  - intros H x r C. apply spine_pair in C as [d [C _]]. congruence.
  - intros H. destruct (stx_pair e) as [[a d]|] eqn:E; auto. exfalso. apply (H a d). eapply pair_spine; eauto. constructor.
Qed.
Lemma null_empty : forall e, stx_null e = true <-> empty e.
Proof.
  intros e. split.
  - intros H. destruct e; cbn in H; try discriminate; [constructor|]. destruct e1; try discriminate; constructor.
  - intros H. inversion H; reflexivity.
Qed.
Lemma empty_nopair : forall e, empty e -> stx_pair e = None.
Proof. intros e H. inversion H; reflexivity. Qed.
Lemma spine_app : forall e a b r, spine e (a ++ b) r <-> exists m, spine e a m /\ spine m b r.
Proof.
  intros e a. revert e. induction a as [|x a IH]; intros e b r; cbn [app]; split.
  - intros H. exists e. split; auto. constructor.
  - intros [m [H1 H2]]. inversion H1; subst. auto.
  - intros H. apply spine_pair in H as [d [H1 H2]]. apply IH in H2 as [m [H2 H3]]. exists m. split; auto. eapply pair_spine; eauto.
  - intros [m [H1 H2]]. apply spine_pair in H1 as [d [H1 H3]]. eapply pair_spine; eauto. apply IH. eauto.
Qed.
Lemma pml_app : forall a b es bs, pml (a ++ b) es bs <->
  exists e1 e2 b1 b2, es = e1 ++ e2 /\ bs = b1 ++ b2 /\ pml a e1 b1 /\ pml b e2 b2.
Proof.
  induction a as [|p a IH]; intros b es bs; cbn [app]; split.
  - intros H. exists [], es, [], bs. repeat split; auto. constructor.
  - intros [e1 [e2 [b1 [b2 [-> [-> [H1 H2]]]]]]]. inversion H1; subst. auto.
  - intros H. inversion H; subst. apply IH in H5 as [e1 [e2 [b1 [b2 [-> [-> [H5 H6]]]]]]].
    exists (e :: e1), e2, (b0 ++ b1), b2. repeat split; auto using app_assoc. constructor; auto.
  - intros [e1 [e2 [b1 [b2 [-> [-> [H1 H2]]]]]]]. inversion H1; subst. cbn [app]. rewrite <- app_assoc.
    constructor; auto. apply IH. exists es, e2, bs, b2. auto.
Qed.

Lemma mapp_ok : forall a b r, mapp a b = MOk r <-> exists x y, a = MOk x /\ b = MOk y /\ r = x ++ y.
Proof.
  intros a b r. split.
  - destruct a, b; cbn; intros H; try discriminate. inversion H; subst. eauto 6.
  - intros [x [y [-> [-> ->]]]]. reflexivity.
Qed.
Lemma mcons_ok : forall a b r, mcons a b = MOk r <-> exists y, b = MOk y /\ r = a :: y.
Proof.
  intros a b r. split.
  - destruct b; cbn; intros H; try discriminate. inversion H; subst. eauto 6.
  - intros [y [-> ->]]. reflexivity.
Qed.
Lemma to_list_spine : forall e l, to_list e = Some l -> spine e l ONull.
Proof.
  induction e; intros xs H; cbn in H; try discriminate.
  - inversion H; constructor.
  - destruct (to_list e2) eqn:E; try discriminate. inversion H; subst. constructor. apply IHe2. reflexivity.
Qed.
Lemma columns_nil : forall n, columns n [] = repeat ONull n.
Proof.
  intros. unfold columns. cbn [map of_list]. generalize 0. induction n; intros k; cbn; auto. rewrite IHn. auto.
Qed.

Definition good (p : pat) : Prop := forall tl, p = PList [] tl -> tl = None.
Definition sound (p : pat) : Prop := forall e bs, amatch p e = MOk bs -> pm p e bs.
Lemma mmap_sound : forall p l rows, sound p -> mmap (amatch p) l = MOk rows -> pmr p l rows.
Proof.
  intros p l. induction l as [|x l IH]; intros rows SD H; cbn in H.
  - inversion H; constructor.
  - destruct (amatch p x) eqn:E1; try discriminate; cbn in H; destruct (mmap (amatch p) l) eqn:E2; try discriminate.
    inversion H; subst. constructor; auto.
Qed.
Lemma pmr_rows : forall p l rows, pmr p l rows -> Forall (fun r => length r = length (vars 0 p)) rows.
Proof. apply pm_length_all. Qed.
Lemma transpose_rows : forall n rows, Forall (fun r => length r = n) rows -> rows <> [] ->
  transpose (MOk rows) = MOk (columns n rows).
Proof.
  intros n rows H N. destruct rows as [|r0 rs]; [congruence|]. cbn [transpose].
  inversion H; subst. replace (forallb (fun r => length r =? length r0) rs) with true; [reflexivity|].
  symmetry. apply forallb_forall. intros x Hx. rewrite Forall_forall in H3. apply Nat.eqb_eq. apply H3. auto.
Qed.
Lemma aell_sound : forall p e bs, sound p -> aell amatch p e = MOk bs ->
  exists mids rest rows, spine e mids rest /\ empty rest /\ pmr p mids rows /\ bs = columns (length (vars 0 p)) rows.
Proof.
  intros p e bs SD H. unfold aell in H.
  destruct (stx_list e) eqn:EL; [|discriminate].
  destruct (stx_null e) eqn:EN.
  - inversion H; subst. exists [], e, []. rewrite columns_nil. repeat split; try constructor. apply null_empty; auto.
  - assert (G : exists l rest, stx_to_list e = Some l /\ spine e l rest /\ empty rest \/ stx_to_list e = None).
    { destruct (stx_to_list e) as [l|] eqn:E; [|exists [], e; auto]. exists l, ONull. left. split; auto.
      split; [|constructor]. destruct e; cbn in E; try discriminate.
      - destruct (to_list e2) eqn:E2; try discriminate. destruct (forallb syntaxp (e1 :: l0)); inversion E; subst. constructor. apply to_list_spine; auto.
      - destruct e1; try discriminate; cbn in E.
        destruct (to_list e1_2) eqn:E2; try discriminate. inversion E; subst. constructor. apply to_list_spine; auto. }
    destruct G as [l [rest [[E [SP EM]]|E]]]; rewrite E in H; [|discriminate].
    destruct (mmap (amatch p) l) as [rows| | |] eqn:EM2; try discriminate.
    apply mmap_sound in EM2; auto. exists l, rest, rows. repeat split; auto.
    destruct l as [|x l].
    { inversion SP; subst. apply null_empty in EM. congruence. }
    rewrite (transpose_rows (length (vars 0 p))) in H.
    + inversion H; auto.
    + eapply pmr_rows; eauto.
    + inversion EM2; subst; discriminate.
Qed.
Lemma aseq_sound : forall ps k e bs, Forall sound ps -> Forall good ps -> aseq amatch k ps e = MOk bs ->
  exists es rest b1 b2, spine e es rest /\ pml ps es b1 /\ k rest = MOk b2 /\ bs = b1 ++ b2.
Proof.
  induction ps as [|p ps IH]; intros k e bs SD GD H.
  - exists [], e, [], bs. repeat split; auto; constructor.
  - inversion SD as [|? ? Sp SD']; subst. inversion GD as [|? ? Gp GD']; subst.
    assert (G : exists a d b r, stx_pair e = Some (a, d) /\ amatch p a = MOk b /\ aseq amatch k ps d = MOk r /\ bs = b ++ r).
    { cbn [aseq] in H. destruct p as [|x|dd|l tl|l p0 qs tl|l|l p0 qs].
      - destruct (stx_null e); try discriminate. destruct (stx_pair e) as [[a d]|]; try discriminate.
        exists a, d, [], bs. auto.
      - destruct (stx_pair e) as [[a d]|]; try discriminate. apply mcons_ok in H as [y [H1 ->]].
        exists a, d, [a], y. auto.
      - destruct (stx_pair e) as [[a d]|]; try discriminate.
        destruct (amatch (PLit dd) a) as [b| | |] eqn:E; try discriminate.
        assert (b = []). { cbn in E. destruct a; try discriminate. destruct (atom_eqb dd a1); inversion E; auto. }
        subst b. exists a, d, [], bs. auto.
      - destruct (stx_pair e) as [[a d]|]; try discriminate. destruct l as [|q l].
        + destruct (amatch (PList [] tl) a) as [b| | |] eqn:E; try discriminate.
          exists a, d, b, bs. repeat split; auto.
          rewrite (Gp tl eq_refl) in E. cbn in E. destruct (stx_null a); inversion E; subst. reflexivity.
        + apply mapp_ok in H as [x [y [H1 [H2 ->]]]]. exists a, d, x, y. auto.
      - destruct (stx_pair e) as [[a d]|]; try discriminate. apply mapp_ok in H as [x [y [H1 [H2 ->]]]]. exists a, d, x, y. auto.
      - destruct (stx_pair e) as [[a d]|]; try discriminate. apply mapp_ok in H as [x [y [H1 [H2 ->]]]]. exists a, d, x, y. auto.
      - destruct (stx_pair e) as [[a d]|]; try discriminate. apply mapp_ok in H as [x [y [H1 [H2 ->]]]]. exists a, d, x, y. auto. }
    destruct G as [a [d [b [r [E1 [E2 [E3 ->]]]]]]].
    apply IH in E3; auto. destruct E3 as [es [rest [b1 [b2 [G1 [G2 [G3 ->]]]]]]].
    exists (a :: es), rest, (b ++ b1), b2. repeat split; auto.
    + eapply pair_spine; eauto.
    + constructor; auto.
    + apply app_assoc.
Qed.

(** split-stx-list on any value *)
Definition base_count (prop : bool) (rest : obj) : Z := (if prop then (if stx_null rest then 0 else -1) else 1)%Z.
Lemma split_nopair : forall n prop s, stx_pair s = None -> split_loop n prop s = ([], s, base_count prop s).
Proof.
  intros n prop s H. destruct s; cbn in H; try discriminate; try reflexivity.
  destruct s1; try discriminate; reflexivity.
Qed.
Lemma split_step : forall n prop s a d, stx_pair s = Some (a, d) ->
  split_loop n prop s = let '(pre, post, m) := split_loop n prop d in
                        if (m <? n)%Z then ([], s, (m + 1)%Z) else (a :: pre, post, m).
Proof.
  intros n prop s a d H. destruct s; cbn in H; try discriminate.
  - inversion H; subst. reflexivity.
  - destruct s1; try discriminate. inversion H; subst. reflexivity.
Qed.
Lemma split_spec : forall n prop es s rest, spine s es rest -> stx_pair rest = None -> (base_count prop rest <= n)%Z ->
  (((base_count prop rest + Z.of_nat (length es) < n)%Z /\
    split_loop n prop s = ([], s, (base_count prop rest + Z.of_nat (length es))%Z)) \/
   (exists pre es2 post, es = pre ++ es2 /\ spine s pre post /\ spine post es2 rest /\
      (base_count prop rest + Z.of_nat (length es2) = n)%Z /\ split_loop n prop s = (pre, post, n))).
Proof.
  intros n prop es. induction es as [|a es IH]; intros s rest SP NP LE.
  - inversion SP; subst. rewrite split_nopair by auto.
    destruct (Z.eq_dec (base_count prop rest) n).
    + right. exists [], [], rest. repeat split; auto; try constructor. cbn. lia. congruence.
    + left. cbn. split; [lia|]. f_equal. lia.
  - apply spine_pair in SP as [d [E SP]]. rewrite (split_step _ _ _ _ _ E).
    destruct (IH d rest SP NP LE) as [[L EQ]|[pre [es2 [post [-> [S1 [S2 [L EQ]]]]]]]]; rewrite EQ.
    + replace (base_count prop rest + Z.of_nat (length es) <? n)%Z with true by (symmetry; apply Z.ltb_lt; lia).
      destruct (Z.eq_dec (base_count prop rest + Z.of_nat (length es) + 1) n).
      * right. exists [], (a :: es), s. repeat split; auto; try constructor.
        -- eapply pair_spine; eauto.
        -- cbn [length]. lia.
        -- congruence.
      * left. cbn [length]. split; [lia|]. f_equal. lia.
    + rewrite Z.ltb_irrefl. right. exists (a :: pre), es2, post. repeat split; auto. eapply pair_spine; eauto.
Qed.
Lemma spine_total : forall s, exists es rest, spine s es rest /\ stx_pair rest = None.
Proof.
  assert (G : forall s, (exists es rest, spine s es rest /\ stx_pair rest = None) /\
                        (forall l, exists es rest, spine (OSyntax s l) es rest /\ stx_pair rest = None)).
  { induction s; split; try (exists []; eexists; split; [constructor | reflexivity]);
      try (intros lc; exists []; eexists; split; [constructor | reflexivity]).
    - destruct (proj1 IHs2) as [es [rest [H1 H2]]]. exists (s1 :: es), rest. split; auto. constructor; auto.
    - intros lc. destruct (proj1 IHs2) as [es [rest [H1 H2]]]. exists (s1 :: es), rest. split; auto. constructor; auto.
    - apply IHs1. }
  intros s. apply G.
Qed.
Lemma spine_of_list : forall l l' r, spine (of_list l) l' r -> stx_pair r = None -> l' = l /\ r = ONull.
Proof.
  induction l as [|a l IH]; intros l' r H N.
  - inversion H; subst. auto.
  - inversion H; subst.
    + cbn in N. discriminate.
    + destruct (IH es r H4 N) as [-> ->]. auto.
Qed.
Lemma vec_vector : forall e es, vector e es <-> exists x l, e = OSyntax x l /\ vec_elems x = Some es.
Proof.
  intros e es. split.
  - intros H. inversion H; subst; eauto.
  - intros [x [l [-> H]]]. destruct x; cbn in H; inversion H; subst; constructor.
Qed.
Lemma avector_ok : forall e k bs, avector e k = MOk bs <-> exists es, vector e es /\ k es = MOk bs.
Proof.
  intros e k bs. split.
  - intros H. unfold avector in H. destruct e; cbn in H; try discriminate.
    destruct (vec_elems e1) as [w|] eqn:E; try discriminate. exists w. split; auto. apply vec_vector. eauto.
  - intros [es [H1 H2]]. apply vec_vector in H1 as [x [l [-> H1]]]. cbn. rewrite H1. auto.
Qed.
Lemma avec_sound : forall ps es k bs, Forall sound ps -> length ps <= length es -> avec amatch ps es k = MOk bs ->
  exists b1 b2, pml ps (firstn (length ps) es) b1 /\ k = MOk b2 /\ bs = b1 ++ b2.
Proof.
  induction ps as [|p ps IH]; intros es k bs SD L H.
  - exists [], bs. repeat split; auto. constructor.
  - destruct es as [|e es]; [cbn in L; lia|]. cbn [avec] in H. apply mapp_ok in H as [x [y [H1 [H2 ->]]]].
    inversion SD; subst. apply IH in H2; [|auto|cbn in L; lia]. destruct H2 as [b1 [b2 [G1 [G2 ->]]]].
    exists (x ++ b1), b2. cbn [length firstn]. repeat split; auto.
    + constructor; auto.
    + apply app_assoc.
Qed.
Lemma wf_good : forall lits p, wf lits p -> good p.
Proof.
  intros lits p H tl ->. inversion H; subst. destruct tl as [t|]; auto. destruct (H3 t eq_refl) as [_ [_ C]]. congruence.
Qed.
Lemma tail_sound : forall tl rest b, (forall t, tl = Some t -> sound t) -> tail_of tl rest = MOk b -> pmt tl rest b.
Proof.
  intros [t|] rest b H E; cbn in E.
  - constructor. apply H; auto.
  - destruct (stx_null rest) eqn:N; inversion E; subst. constructor. apply null_empty; auto.
Qed.
Lemma pml_lengths : forall ps es bs, pml ps es bs -> length es = length ps.
Proof. induction ps; intros es bs H; inversion H; subst; cbn; auto. erewrite IHps; eauto. Qed.

Theorem amatch_sound : forall lits p, wf lits p -> sound p.
Proof.
  intros lits p. induction p using pat_ind_strong; intros W e bs M.
  - inversion M; subst. constructor.
  - inversion M; subst. constructor.
  - cbn in M. destruct e; try discriminate. inversion W; subst.
    destruct (atom_eqb d e1) eqn:E; inversion M; subst. eapply literal_eqb in E; eauto. subst. constructor.
  - inversion W as [| | |? ? WF WT| | |]; subst.
    assert (SD : Forall sound ps) by (clear - WF H; induction WF; constructor; inversion H; subst; auto).
    assert (GD : Forall good ps) by (clear - WF; induction WF; constructor; eauto using wf_good).
    change (aseq amatch (tail_of tl) ps e = MOk bs) in M. apply aseq_sound in M; auto.
    destruct M as [es [rest [b1 [b2 [G1 [G2 [G3 ->]]]]]]]. econstructor; eauto. apply tail_sound; auto.
    intros t ->. apply H0; auto. apply (WT t eq_refl).
  - inversion W as [| | | |? ? ? ? WF Wp WQ WT| |]; subst.
    assert (SD : forall l, Forall (fun p => wf lits p -> sound p) l -> Forall (wf lits) l -> Forall sound l).
    { clear. intros l HA HB. induction HB; constructor; inversion HA; subst; auto. }
    assert (GD : forall l, Forall (wf lits) l -> Forall good l) by (clear; intros l HB; induction HB; constructor; eauto using wf_good).
    specialize (SD ps H WF) as SP. specialize (SD qs H0 WQ) as SQ. specialize (IHp Wp).
    assert (TS : forall rest b, tail_of tl rest = MOk b -> pmt tl rest b).
    { intros. apply tail_sound; auto. intros t ->. apply H1; auto. apply (WT t eq_refl). }
    destruct (Nat.eq_dec (length qs + tailcount tl) 0) as [Z0|NZ].
    + destruct qs; [|cbn in Z0; lia]. destruct tl; [cbn in Z0; lia|].
      change (aseq amatch (aell amatch p) ps e = MOk bs) in M. apply aseq_sound in M; auto.
      destruct M as [es [rest [b1 [b2 [G1 [G2 [G3 ->]]]]]]].
      apply aell_sound in G3; auto. destruct G3 as [mids [rest2 [rows [K1 [K2 [K3 ->]]]]]].
      replace (columns (length (vars 0 p)) rows) with (columns (length (vars 0 p)) rows ++ [] ++ []) by (cbn; apply app_nil_r).
      eapply PmEll with (es1 := es) (mids := mids) (es2 := []) (rest := rest2); eauto.
      * rewrite app_nil_r. apply spine_app. eauto.
      * apply nopair_spine. apply empty_nopair; auto.
      * constructor.
      * constructor; auto.
    + rewrite amatch_ell_S in M by lia. cbv zeta in M.
      destruct (spine_total e) as [es [rest [SPN NP]]].
      set (n := Z.of_nat (length qs + tailcount tl)) in *.
      assert (LE : (base_count (isnone tl) rest <= n)%Z).
      { unfold base_count, n. destruct tl; cbn [isnone tailcount]; [lia|]. destruct (stx_null rest); lia. }
      destruct (split_spec n (isnone tl) es e rest SPN NP LE) as [[L EQ]|[pre [es2 [post [-> [S1 [S2 [L EQ]]]]]]]]; rewrite EQ in M.
      { replace (_ =? n)%Z with false in M by (symmetry; apply Z.eqb_neq; lia). discriminate. }
      rewrite Z.eqb_refl in M. apply mapp_ok in M as [x [y [M1 [M2 ->]]]].
      apply aseq_sound in M1; auto. destruct M1 as [e1 [r1 [b1 [b2 [G1 [G2 [G3 ->]]]]]]].
      apply aell_sound in G3; auto. destruct G3 as [mids [rest2 [rows [K1 [K2 [K3 ->]]]]]].
      assert (SPM : pre = e1 ++ mids).
      { assert (SA : spine (of_list pre) (e1 ++ mids) rest2) by (apply spine_app; eauto).
        apply spine_of_list in SA; [symmetry; tauto|]. apply empty_nopair; auto. }
      subst pre.
      apply aseq_sound in M2; auto. destruct M2 as [e3 [r3 [b3 [b4 [J1 [J2 [J3 ->]]]]]]].
      assert (EL : e3 = es2 /\ r3 = rest).
      { pose proof (pml_lengths _ _ _ J2) as LL.
        assert (PR : exists more, es2 = e3 ++ more /\ spine r3 more rest).
        { clear - J1 S2 NP. revert post es2 S2 J1. induction e3 as [|z e3 IH]; intros post es2 S2 J1.
          - inversion J1; subst. exists es2. auto.
          - apply spine_pair in J1 as [d [E1 J1]]. destruct es2 as [|z' es2].
            + inversion S2; subst. congruence.
            + apply spine_pair in S2 as [d' [E2 S2]]. rewrite E1 in E2. inversion E2; subst.
              destruct (IH _ _ S2 J1) as [more [-> ?]]. exists more. auto. }
        destruct PR as [more [-> PR]]. rewrite app_length in L.
        destruct tl as [t|]; cbn [tail_of] in J3.
        - unfold base_count, n in L. cbn [isnone tailcount] in L.
          assert (length more = 0) by lia. destruct more; [|discriminate]. inversion PR; subst. rewrite app_nil_r. auto.
        - destruct (stx_null r3) eqn:EN; [|discriminate]. apply null_empty in EN. apply empty_nopair in EN.
          destruct more; [|apply spine_pair in PR as [? [C _]]; congruence]. inversion PR; subst. rewrite app_nil_r. auto. }
      destruct EL as [-> ->].
      rewrite <- app_assoc. eapply PmEll; eauto.
      * rewrite app_assoc. apply spine_app. eauto.
      * apply nopair_spine; auto.
  - inversion W as [| | | | |? WF|]; subst.
    assert (SD : Forall sound ps) by (clear - WF H; induction WF; constructor; inversion H; subst; auto).
    cbn [amatch] in M. apply avector_ok in M as [es [V M]].
    destruct (length es =? length ps) eqn:EL; [|discriminate]. apply Nat.eqb_eq in EL.
    apply avec_sound in M; auto; [|lia]. destruct M as [b1 [b2 [G1 [G2 ->]]]]. inversion G2; subst.
    rewrite app_nil_r. rewrite firstn_all2 in G1 by lia. econstructor; eauto.
  - inversion W as [| | | | | |? ? WF Wp]; subst.
    assert (SD : Forall sound ps) by (clear - WF H; induction WF; constructor; inversion H; subst; auto).
    cbn [amatch] in M. apply avector_ok in M as [es [V M]].
    destruct (length ps <=? length es) eqn:EL; [|discriminate]. apply Nat.leb_le in EL.
    apply avec_sound in M; auto. destruct M as [b1 [b2 [G1 [G2 ->]]]]. cbv zeta in G2.
    assert (G : exists rows, pmr p (skipn (length ps) es) rows /\ b2 = columns (length (vars 0 p)) rows).
    { destruct (length es - length ps =? 0) eqn:E0.
      - apply Nat.eqb_eq in E0. inversion G2; subst. exists []. rewrite columns_nil. rewrite skipn_all2 by lia. split; auto. constructor.
      - apply Nat.eqb_neq in E0. destruct (mmap (amatch p) (skipn (length ps) es)) as [rows| | |] eqn:EM; try discriminate.
        apply mmap_sound in EM; auto. exists rows. split; auto.
        rewrite (transpose_rows (length (vars 0 p))) in G2.
        + inversion G2; auto.
        + eapply pmr_rows; eauto.
        + intros ->. assert (E1 : length (skipn (length ps) es) = 0) by (inversion EM; reflexivity). rewrite skipn_length in E1. lia. }
    destruct G as [rows [K1 ->]].
    replace (columns (length (vars 0 p)) rows) with (columns (length (vars 0 p)) rows ++ []) by apply app_nil_r.
    eapply PmVecEll with (es1 := firstn (length ps) es) (mids := skipn (length ps) es) (es2 := []); eauto.
    + rewrite app_nil_r, firstn_skipn. auto.
    + constructor.
Qed.

(** * Completeness on values made by datum->syntax and the reader *)
Definition fend (t : obj) : Prop := t = ONull \/ (flat t /\ ~ empty t /\ forall x r, ~ spine t [x] r).
Definition ftail (e : obj) : Prop := exists es t, e = chain es t /\ Forall flat es /\ fend t.
Definition fl (e : obj) : Prop := flat e \/ ftail e.

Lemma flat_syntax : forall e, flat e -> syntaxp e = true.
Proof. intros e H. inversion H; reflexivity. Qed.
Lemma fend_nopair : forall t, fend t -> stx_pair t = None.
Proof. intros t [->|[_ [_ H]]]; [reflexivity|]. apply nopair_spine; auto. Qed.
Lemma chain_pair : forall es t a d, fend t -> chain es t = OPair a d -> exists es', es = a :: es' /\ d = chain es' t.
Proof.
  intros [|x es] t a d H E.
  - cbn in E. subst. apply fend_nopair in H. discriminate.
  - cbn in E. inversion E; subst. eauto.
Qed.
Lemma fl_pair : forall e a d, fl e -> stx_pair e = Some (a, d) -> flat a /\ ftail d.
Proof.
  assert (G : forall es t a d, Forall flat es -> fend t -> chain es t = OPair a d -> flat a /\ ftail d).
  { intros es t a d HF HE E. destruct (chain_pair _ _ _ _ HE E) as [es' [-> ->]]. inversion HF; subst. split; auto.
    exists es', t. auto. }
  intros e a d [H|[es [t [-> [HF HE]]]]] E.
  - inversion H; subst; cbn in E.
    + destruct x; try discriminate. exfalso. eapply H0; reflexivity.
    + destruct (chain es t) eqn:EC; try discriminate. inversion E; subst. eapply G; eauto.
    + discriminate.
  - destruct es as [|x es].
    + cbn [chain fold_right] in E. rewrite fend_nopair in E by auto. discriminate.
    + eapply G; eauto. cbn in E. inversion E; subst. reflexivity.
Qed.
Lemma fl_spine : forall es e rest, fl e -> spine e es rest -> Forall flat es /\ fl rest.
Proof.
  induction es as [|a es IH]; intros e rest F SP.
  - inversion SP; subst. auto.
  - apply spine_pair in SP as [d [E SP]]. destruct (fl_pair _ _ _ F E) as [Fa Fd].
    destruct (IH d rest (or_intror Fd) SP). auto.
Qed.
Lemma ftail_nopair : forall e, ftail e -> stx_pair e = None -> fend e.
Proof.
  intros e [es [t [-> [HF HE]]]] N. destruct es; auto. discriminate.
Qed.
Lemma ftail_list : forall es e rest, ftail e -> spine e es rest -> empty rest -> e = of_list es.
Proof.
  induction es as [|a es IH]; intros e rest F SP EM.
  - inversion SP; subst. destruct (ftail_nopair rest F) as [->|[_ [N _]]]; auto.
    + apply empty_nopair; auto.
    + contradiction.
  - destruct F as [xs [t [-> [HF HE]]]]. destruct xs as [|x xs].
    + cbn [chain fold_right] in SP. apply spine_pair in SP as [d [E SP]]. rewrite fend_nopair in E by auto. discriminate.
    + inversion HF; subst. cbn [chain fold_right] in SP |- *. inversion SP; subst. cbn [of_list]. f_equal.
      eapply IH; eauto. exists xs, t. auto.
Qed.
Lemma to_list_of_list : forall l, to_list (of_list l) = Some l.
Proof. induction l; cbn; auto. rewrite IHl. auto. Qed.
Lemma forallb_flat : forall l, Forall flat l -> forallb syntaxp l = true.
Proof. induction 1; cbn; auto. rewrite flat_syntax by auto. auto. Qed.
Lemma fl_list : forall es e rest, fl e -> spine e es rest -> empty rest -> stx_list e = true /\ stx_to_list e = Some es.
Proof.
  intros es e rest F SP EM.
  destruct es as [|a es].
  - inversion SP; subst. inversion EM; subst; split; reflexivity.
  - destruct (fl_spine _ _ _ F SP) as [FF _].
    apply spine_pair in SP as [d [E SP]]. pose proof (fl_pair _ _ _ F E) as [Fa Fd].
    pose proof (ftail_list _ _ _ Fd SP EM) as ->.
    destruct e; cbn in E; try discriminate.
    + inversion E; subst. unfold stx_list, stx_to_list, rlist. cbn [to_list]. rewrite to_list_of_list.
      rewrite forallb_flat by auto. auto.
    + destruct e1; try discriminate. inversion E; subst. unfold stx_list, stx_to_list, rlist. cbn [to_list].
      rewrite to_list_of_list. auto.
Qed.
Lemma fl_of_list : forall l, Forall flat l -> fl (of_list l).
Proof. intros l H. right. exists l, ONull. rewrite of_list_chain. repeat split; auto. left; auto. Qed.
Lemma flat_vector : forall e es, flat e -> vector e es -> Forall flat es.
Proof.
  intros e es F V. inversion V; subst; auto. inversion F; subst; auto.
  - exfalso. eapply H3; reflexivity.
  - destruct es0; cbn in H; try discriminate. subst. destruct H2 as [?|[G _]]; try discriminate. inversion G.
Qed.

Definition okerr (r : mres (list obj)) (bs : list obj) : Prop := r = MOk bs \/ r = MErr.
Definition complete (p : pat) : Prop := forall e bs, fl e -> pm p e bs -> okerr (amatch p e) bs.
Lemma mapp_okerr : forall a b x y, okerr a x -> okerr b y -> okerr (mapp a b) (x ++ y).
Proof. intros a b x y [->| ->] [->| ->]; cbn; unfold okerr; auto. Qed.

Lemma aseq_complete : forall ps k es e rest b1 b2, Forall complete ps -> Forall good ps -> fl e -> spine e es rest -> pml ps es b1 ->
  okerr (k rest) b2 -> okerr (aseq amatch k ps e) (b1 ++ b2).
Proof.
  induction ps as [|p ps IH]; intros k es e rest b1 b2 CP GD F SP PL HK.
  - inversion PL; subst. inversion SP; subst. auto.
  - inversion PL as [|? ? a es0 b bs PMp PML]; subst. inversion CP as [|? ? Cp CP']; subst. inversion GD as [|? ? Gp GD']; subst.
    apply spine_pair in SP as [d [E SP]]. destruct (fl_pair _ _ _ F E) as [Fa Fd].
    pose proof (IH k es0 d rest bs b2 CP' GD' (or_intror Fd) SP PML HK) as N.
    pose proof (Cp _ _ (or_introl Fa) PMp) as M.
    rewrite <- app_assoc. cbn [aseq].
    destruct p as [|x|dd|l tl|l p0 qs tl|l|l p0 qs].
    + inversion PMp; subst. cbn [app]. rewrite E. destruct (stx_null e) eqn:EN; auto.
      apply null_empty in EN. apply empty_nopair in EN. congruence.
    + inversion PMp; subst. rewrite E. destruct N as [->| ->]; unfold okerr; cbn; auto.
    + inversion PMp; subst. rewrite E. cbn [app]. destruct M as [->| ->]; auto. right; auto.
    + rewrite E. destruct l as [|q l].
      * rewrite (Gp tl eq_refl) in *. inversion PMp as [| | |? ? ? ? ? ? ? Q1 Q2 Q3| | |]; subst. inversion Q2; subst. inversion Q3; subst. cbn [app] in *.
        destruct M as [->| ->]; auto. right; auto.
      * apply mapp_okerr; auto.
    + rewrite E. apply mapp_okerr; auto.
    + rewrite E. apply mapp_okerr; auto.
    + rewrite E. apply mapp_okerr; auto.
Qed.
Lemma mmap_complete : forall p l rows, complete p -> Forall flat l -> pmr p l rows -> mmap (amatch p) l = MOk rows \/ mmap (amatch p) l = MErr.
Proof.
  intros p l rows CP F H. revert F. induction H; intros F; cbn; auto. inversion F; subst.
  destruct (CP _ _ (or_introl H3) H) as [->| ->]; cbn; auto.
  destruct (IHpmr CP H4) as [->| ->]; auto.
Qed.
Lemma aell_complete : forall p e mids rest rows, complete p -> fl e -> spine e mids rest -> empty rest -> pmr p mids rows ->
  okerr (aell amatch p e) (columns (length (vars 0 p)) rows).
Proof.
  intros p e mids rest rows CP F SP EM PR. unfold aell.
  destruct (fl_list _ _ _ F SP EM) as [-> ->]. destruct (fl_spine _ _ _ F SP) as [FF _].
  destruct (stx_null e) eqn:EN.
  - apply null_empty in EN. apply empty_nopair in EN.
    destruct mids; [|apply spine_pair in SP as [? [C _]]; congruence]. inversion PR; subst. rewrite columns_nil. left; auto.
  - destruct (mmap_complete _ _ _ CP FF PR) as [->| ->]; [|right; auto].
    left. apply transpose_rows; [eapply pmr_rows; eauto|].
    intros ->. inversion PR; subst. inversion SP; subst. apply null_empty in EM. congruence.
Qed.
Lemma avec_complete : forall ps es k b1 b2, Forall complete ps -> Forall flat es -> pml ps (firstn (length ps) es) b1 ->
  okerr k b2 -> okerr (avec amatch ps es k) (b1 ++ b2).
Proof.
  induction ps as [|p ps IH]; intros es k b1 b2 CP F PL HK.
  - inversion PL; subst. destruct es; auto.
  - destruct es as [|e es]; cbn [firstn length] in PL; inversion PL; subst.
    inversion CP; subst. inversion F; subst. cbn [avec]. rewrite <- app_assoc. apply mapp_okerr; auto.
    apply H1; auto. left; auto.
Qed.
Lemma tail_complete : forall tl rest b, (forall t, tl = Some t -> complete t) -> fl rest -> pmt tl rest b -> okerr (tail_of tl rest) b.
Proof.
  intros tl rest b H F P. inversion P; subst; cbn.
  - apply null_empty in H0. rewrite H0. left; auto.
  - apply H; auto.
Qed.

Theorem amatch_complete : forall lits p, wf lits p -> complete p.
Proof.
  intros lits p. induction p using pat_ind_strong; intros W e bs F M.
  - inversion M; subst. left; reflexivity.
  - inversion M; subst. left; reflexivity.
  - inversion M; subst. inversion W; subst. cbn. rewrite (proj2 (literal_eqb lits d d H0)) by auto. left; auto.
  - inversion W as [| | |? ? WF WT| | |]; subst.
    assert (SD : Forall complete ps) by (clear - WF H; induction WF; constructor; inversion H; subst; auto).
    assert (GD : Forall good ps) by (clear - WF; induction WF; constructor; eauto using wf_good).
    inversion M; subst. change (okerr (aseq amatch (tail_of tl) ps e) (bs0 ++ bt)).
    eapply aseq_complete; eauto. apply tail_complete; auto.
    + intros t ->. apply H0; auto. apply (WT t eq_refl).
    + eapply fl_spine; eauto.
  - inversion W as [| | | |? ? ? ? WF Wp WQ WT| |]; subst.
    assert (SD : forall l, Forall (fun p => wf lits p -> complete p) l -> Forall (wf lits) l -> Forall complete l).
    { clear. intros l HA HB. induction HB; constructor; inversion HA; subst; auto. }
    assert (GD : forall l, Forall (wf lits) l -> Forall good l) by (clear; intros l HB; induction HB; constructor; eauto using wf_good).
    specialize (SD ps H WF) as SP. specialize (SD qs H0 WQ) as SQ. specialize (IHp Wp).
    assert (TC : forall rest b, fl rest -> pmt tl rest b -> okerr (tail_of tl rest) b).
    { intros. apply tail_complete; auto. intros t ->. apply H1; auto. apply (WT t eq_refl). }
    inversion M as [| | | |? ? ? ? ? es1 mids es2 rest b1 rows b2 bt SPN NP P1 PR P2 PT| |]; subst.
    destruct (fl_spine _ _ _ F SPN) as [FF Fr]. apply Forall_app in FF as [F1 FF]. apply Forall_app in FF as [F2 F3].
    destruct (Nat.eq_dec (length qs + tailcount tl) 0) as [Z0|NZ].
    + destruct qs; [|cbn in Z0; lia]. destruct tl; [cbn in Z0; lia|].
      change (okerr (aseq amatch (aell amatch p) ps e) (b1 ++ columns (length (vars 0 p)) rows ++ b2 ++ bt)).
      inversion P2; subst. inversion PT; subst. rewrite app_nil_r in *.
      apply spine_app in SPN as [m [S1 S2]].
      eapply aseq_complete; eauto. cbn [app]. rewrite ?app_nil_r.
      exact (aell_complete _ _ _ _ _ IHp (proj2 (fl_spine _ _ _ F S1)) S2 H2 PR).
    + rewrite amatch_ell_S by lia. cbv zeta.
      set (n := Z.of_nat (length qs + tailcount tl)) in *.
      apply nopair_spine in NP.
      assert (B : (base_count (isnone tl) rest = if isnone tl then 0 else 1)%Z).
      { unfold base_count. destruct tl; cbn [isnone]; auto. inversion PT; subst. apply null_empty in H2. rewrite H2. auto. }
      assert (LE : (base_count (isnone tl) rest <= n)%Z).
      { rewrite B. unfold n. destruct tl; cbn [isnone tailcount]; lia. }
      pose proof (pml_lengths _ _ _ P2) as LQ.
      rewrite app_assoc in SPN.
      assert (LN : (base_count (isnone tl) rest + Z.of_nat (length es2) = n)%Z).
      { rewrite B, LQ. unfold n. destruct tl; cbn [isnone tailcount]; lia. }
      destruct (split_spec n (isnone tl) _ e rest SPN NP LE) as [[L EQ]|[pre [es2' [post [EE [S1 [S2 [L EQ]]]]]]]]; rewrite EQ.
      { exfalso. rewrite !app_length in L. lia. }
      rewrite Z.eqb_refl.
      assert (EP : pre = es1 ++ mids /\ es2' = es2).
      { assert (LL : length es2' = length es2) by lia.
        assert (LP : length pre = length (es1 ++ mids)).
        { apply (f_equal (@length obj)) in EE. rewrite !app_length in *. lia. }
        clear - EE LP. revert pre LP EE. generalize (es1 ++ mids). induction l as [|x l IH]; intros [|y pre] LP EE; cbn in *; try discriminate; auto.
        inversion EE; subst. inversion LP. destruct (IH pre H0 H1) as [-> ->]. auto. }
      destruct EP as [-> ->].
      rewrite app_assoc. apply mapp_okerr.
      * assert (SO : forall l, spine (of_list l) l ONull) by (induction l; constructor; auto).
        specialize (SO (es1 ++ mids)). apply spine_app in SO as [m [T1 T2]].
        assert (Fp : fl (of_list (es1 ++ mids))) by (apply fl_of_list; apply Forall_app; auto).
        eapply aseq_complete; eauto. exact (aell_complete _ _ _ _ _ IHp (proj2 (fl_spine _ _ _ Fp T1)) T2 EmNull PR).
      * exact (aseq_complete _ _ _ _ _ _ _ SQ (GD _ WQ) (proj2 (fl_spine _ _ _ F S1)) S2 P2 (TC _ _ Fr PT)).
  - inversion W as [| | | | |? WF|]; subst.
    assert (SD : Forall complete ps) by (clear - WF H; induction WF; constructor; inversion H; subst; auto).
    inversion M as [| | | | |? ? es ? V PL|]; subst. cbn [amatch].
    assert (FV : Forall flat es).
    { destruct F as [F|[xs [t [-> [HF HE]]]]]; [eapply flat_vector; eauto|].
      destruct xs; [|inversion V]. destruct HE as [->|[HE _]]; [inversion V|]. eapply flat_vector; eauto. }
    pose proof (pml_lengths _ _ _ PL) as LE.
    apply vec_vector in V as [x [l [-> EV]]]. cbn [avector]. rewrite EV, LE, Nat.eqb_refl.
    rewrite <- (app_nil_r bs). apply avec_complete; auto; [|left; auto]. rewrite firstn_all2 by lia. auto.
  - inversion W as [| | | | | |? ? WF Wp]; subst.
    assert (SD : Forall complete ps) by (clear - WF H; induction WF; constructor; inversion H; subst; auto).
    inversion M as [| | | | | |? ? ? ? es1 mids es2 b1 rows b2 V P1 PR P2]; subst. cbn [amatch]. inversion P2; subst. rewrite app_nil_r in *.
    assert (FV : Forall flat (es1 ++ mids)).
    { destruct F as [F|[xs [t [-> [HF HE]]]]]; [eapply flat_vector; eauto|].
      destruct xs; [|inversion V]. destruct HE as [->|[HE _]]; [inversion V|]. eapply flat_vector; eauto. }
    pose proof (pml_lengths _ _ _ P1) as LE.
    apply vec_vector in V as [x [l [-> EV]]]. cbn [avector]. rewrite EV.
    replace (length ps <=? length (es1 ++ mids)) with true by (symmetry; apply Nat.leb_le; rewrite app_length; lia).
    assert (F1 : firstn (length ps) (es1 ++ mids) = es1).
    { rewrite <- LE, firstn_app, Nat.sub_diag, firstn_all. cbn. apply app_nil_r. }
    assert (F2 : skipn (length ps) (es1 ++ mids) = mids).
    { rewrite <- LE, skipn_app, Nat.sub_diag, skipn_all. reflexivity. }
    apply avec_complete; auto; [rewrite F1; auto|]. cbv zeta. rewrite F2, app_length, LE.
    replace (length ps + length mids - length ps) with (length mids) by lia.
    destruct mids as [|m mids].
    + inversion PR; subst. rewrite columns_nil. left; auto.
    + cbn [length Nat.eqb]. apply Forall_app in FV as [_ FV].
      destruct (mmap_complete _ _ _ (IHp Wp) FV PR) as [->| ->]; [|right; auto].
      left. apply transpose_rows; [eapply pmr_rows; eauto|]. intros ->. inversion PR.
Qed.

(** * No errors *)
Definition decided (r : mres (list obj)) : Prop := r = MNo \/ exists bs, r = MOk bs.
Definition settled (p : pat) : Prop := forall e, flat e \/ (fl e /\ forall d, p <> PLit d) -> decided (amatch p e).
Lemma mapp_decided : forall a b, decided a -> decided b -> decided (mapp a b).
Proof. intros a b [->|[x ->]] [->|[y ->]]; cbn; unfold decided; eauto. Qed.
Lemma aseq_decided : forall ps k e, Forall (fun p => settled p /\ p <> PWild) ps -> fl e ->
  (forall e', fl e' -> decided (k e')) -> decided (aseq amatch k ps e).
Proof.
  induction ps as [|p ps IH]; intros k e ST F HK; [apply HK; auto|].
  inversion ST as [|? ? [Sp NW] ST']; subst. cbn [aseq].
  destruct (stx_pair e) as [[a d]|] eqn:E.
  - destruct (fl_pair _ _ _ F E) as [Fa Fd].
    pose proof (IH k d ST' (or_intror Fd) HK) as N. pose proof (Sp a (or_introl Fa)) as M.
    destruct p as [|x|dd|l tl|l p0 qs tl|l|l p0 qs]; try congruence; auto using mapp_decided.
    + destruct N as [->|[y ->]]; cbn; unfold decided; eauto.
    + destruct M as [->|[y ->]]; auto. left; auto.
    + destruct l; auto using mapp_decided. destruct M as [->|[y ->]]; auto. left; auto.
  - destruct p; try congruence; left; auto.
Qed.
Lemma mmap_decided : forall p l, settled p -> Forall flat l -> mmap (amatch p) l = MNo \/ exists rows, mmap (amatch p) l = MOk rows.
Proof.
  intros p l ST F. induction F; cbn; eauto. destruct (ST x (or_introl H)) as [->|[y ->]]; destruct IHF as [->|[z ->]]; cbn; eauto.
Qed.
Lemma transpose_decided : forall p l, settled p -> sound p -> Forall flat l -> decided (transpose (mmap (amatch p) l)).
Proof.
  intros p l ST SD F. destruct (mmap_decided p l ST F) as [->|[rows E]]; [left; auto|]. rewrite E.
  destruct rows as [|r rows]; [right; eexists; reflexivity|].
  apply mmap_sound in E; auto. rewrite (transpose_rows (length (vars 0 p))); [right; eauto| |discriminate].
  eapply pmr_rows; eauto.
Qed.
Lemma to_list_flat : forall e l, fl e -> stx_to_list e = Some l -> Forall flat l.
Proof.
  intros e l F H.
  assert (SP : exists r, spine e l r \/ (exists x lc, e = OSyntax x lc /\ l = [])).
  { destruct e; cbn in H; try discriminate.
    - inversion H; subst. exists ONull. left. constructor.
    - destruct (to_list e2) eqn:E2; try discriminate. destruct (forallb syntaxp (e1 :: l0)); inversion H; subst.
      exists ONull. left. constructor. apply to_list_spine; auto.
    - destruct e1; try discriminate; cbn in H.
      + inversion H; subst. exists ONull. right. eauto.
      + destruct (to_list e1_2) eqn:E2; try discriminate. inversion H; subst. exists ONull. left. constructor. apply to_list_spine; auto. }
  destruct SP as [r [SP|[x [lc [-> ->]]]]]; [|constructor]. eapply fl_spine; eauto.
Qed.
Lemma aell_decided : forall p e, settled p -> sound p -> fl e -> decided (aell amatch p e).
Proof.
  intros p e ST SD F. unfold aell. destruct (stx_list e); [|left; auto]. destruct (stx_null e); [right; eauto|].
  destruct (stx_to_list e) as [l|] eqn:E; [|left; auto]. apply transpose_decided; auto. eapply to_list_flat; eauto.
Qed.
Lemma avec_decided : forall ps es k, Forall settled ps -> Forall flat es -> decided k -> decided (avec amatch ps es k).
Proof.
  induction ps as [|p ps IH]; intros [|e es] k ST F HK; auto. inversion ST; subst. inversion F; subst. cbn [avec].
  apply mapp_decided; [apply H1|]; auto.
Qed.
Lemma settled_list : forall lits l, Forall (fun p => wf lits p -> tame p -> settled p) l -> Forall (wf lits) l ->
  Forall (fun p => tame p /\ p <> PWild) l -> Forall (fun p => settled p /\ p <> PWild) l.
Proof.
  intros lits l H W T. induction W; constructor; inversion H; subst; inversion T; subst; try tauto; auto.
Qed.
Theorem amatch_decided : forall lits p, wf lits p -> tame p -> settled p.
Proof.
  intros lits p. induction p using pat_ind_strong; intros W T e F.
  - right; eexists; reflexivity.
  - right; eexists; reflexivity.
  - destruct F as [F|[_ C]]; [|exfalso; eapply C; reflexivity]. inversion F; subst; cbn; destruct (atom_eqb _ _); unfold decided; eauto.
  - assert (Fe : fl e) by (destruct F as [F|[F _]]; [left|]; auto).
    inversion W as [| | |? ? WF WT| | |]; subst. inversion T as [| | |? ? TF TT| | |]; subst.
    change (decided (aseq amatch (tail_of tl) ps e)).
    apply aseq_decided; auto. eapply settled_list; eauto.
    intros e' F'. destruct tl as [t|]; cbn.
    + destruct (WT t eq_refl) as [Wt [St _]]. destruct t; cbn in St; try contradiction; try (right; eexists; reflexivity).
      exfalso. eapply TT; reflexivity.
    + destruct (stx_null e'); unfold decided; eauto.
  - assert (Fe : fl e) by (destruct F as [F|[F _]]; [left|]; auto).
    inversion W as [| | | |? ? ? ? WF Wp WQ WT| |]; subst. inversion T as [| | | |? ? ? ? TF Tp TQ TT| |]; subst.
    pose proof (settled_list _ _ H WF TF) as SP. pose proof (settled_list _ _ H0 WQ TQ) as SQ.
    specialize (IHp Wp Tp). pose proof (amatch_sound _ _ Wp) as SDp.
    assert (TD : forall e', fl e' -> decided (tail_of tl e')).
    { intros e' F'. destruct tl as [t|]; cbn.
      + destruct (WT t eq_refl) as [Wt St]. destruct t; cbn in St; try contradiction; try (right; eexists; reflexivity).
        exfalso. eapply TT; reflexivity.
      + destruct (stx_null e'); unfold decided; eauto. }
    destruct (Nat.eq_dec (length qs + tailcount tl) 0) as [Z0|NZ].
    + destruct qs; [|cbn in Z0; lia]. destruct tl; [cbn in Z0; lia|].
      change (decided (aseq amatch (aell amatch p) ps e)). apply aseq_decided; auto. intros; apply aell_decided; auto.
    + rewrite amatch_ell_S by lia. cbv zeta.
      destruct (spine_total e) as [es [rest [SPN NP]]].
      set (n := Z.of_nat (length qs + tailcount tl)) in *.
      assert (LE : (base_count (isnone tl) rest <= n)%Z).
      { unfold base_count, n. destruct tl; cbn [isnone tailcount]; [lia|]. destruct (stx_null rest); lia. }
      destruct (split_spec n (isnone tl) es e rest SPN NP LE) as [[L EQ]|[pre [es2 [post [-> [S1 [S2 [L EQ]]]]]]]]; rewrite EQ.
      { replace (_ =? n)%Z with false by (symmetry; apply Z.eqb_neq; lia). left; auto. }
      rewrite Z.eqb_refl. destruct (fl_spine _ _ _ Fe S1) as [Fpre Fpost]. apply mapp_decided.
      * apply aseq_decided; auto using fl_of_list. intros; apply aell_decided; auto.
      * apply aseq_decided; auto.
  - inversion W as [| | | | |? WF|]; subst. inversion T as [| | | | |? TF|]; subst.
    assert (SD : Forall settled ps) by (clear - WF H TF; induction WF; constructor; inversion H; inversion TF; subst; auto).
    cbn [amatch]. destruct F as [F|[F _]].
    + unfold avector. destruct e; try (inversion F; fail). destruct (vec_elems e1) as [w|] eqn:E; [|left; auto].
      destruct (length w =? length ps); [|left; auto]. apply avec_decided; auto; [|right; eauto].
      eapply flat_vector; eauto. apply vec_vector. eauto.
    + assert (G : avector e (fun w => if length w =? length ps then avec amatch ps w (MOk []) else MNo) = MNo \/ flat e).
      { destruct F as [F|[xs [t [-> [HF HE]]]]]; auto. destruct xs; [|left; auto]. destruct HE as [->|[HE _]]; auto. }
      destruct G as [->|Fe]; [left; auto|].
      unfold avector. destruct e; try (inversion Fe; fail). destruct (vec_elems e1) as [w|] eqn:E; [|left; auto].
      destruct (length w =? length ps); [|left; auto]. apply avec_decided; auto; [|right; eauto].
      eapply flat_vector; eauto. apply vec_vector. eauto.
  - inversion W as [| | | | | |? ? WF Wp]; subst. inversion T as [| | | | | |? ? ? TF Tp TQ]; subst.
    assert (SD : Forall settled ps) by (clear - WF H TF; induction WF; constructor; inversion H; inversion TF; subst; auto).
    pose proof (amatch_sound _ _ Wp) as SDp. specialize (IHp Wp Tp).
    cbn [amatch].
    match goal with |- decided (avector e ?k) => assert (G : avector e k = MNo \/ flat e) end.
    { destruct F as [F|[F _]]; auto. destruct F as [F|[xs [t [-> [HF HE]]]]]; auto.
      destruct xs; [|left; auto]. destruct HE as [->|[HE _]]; auto. }
    destruct G as [->|Fe]; [left; auto|].
    unfold avector. destruct e; try (inversion Fe; fail). destruct (vec_elems e1) as [w|] eqn:E; [|left; auto].
    assert (FV : Forall flat w) by (eapply flat_vector; eauto; apply vec_vector; eauto).
    destruct (length ps <=? length w); [|left; auto]. apply avec_decided; auto.
    cbv zeta. destruct (length w - length ps =? 0); [right; eauto|]. apply transpose_decided; auto.
    rewrite <- (firstn_skipn (length ps) w) in FV. apply Forall_app in FV. tauto.
Qed.

(** * A pattern matches in one way *)
Lemma spine_unique : forall s es rest es' rest', spine s es rest -> stx_pair rest = None -> spine s es' rest' -> stx_pair rest' = None ->
  es = es' /\ rest = rest'.
Proof.
  intros s es rest es' rest' H. revert es' rest'. induction H; intros es' rest' N H' N'.
  - inversion H'; subst; auto; discriminate.
  - inversion H'; subst; [discriminate|]. edestruct IHspine as [-> ->]; eauto.
  - inversion H'; subst; [discriminate|]. edestruct IHspine as [-> ->]; eauto.
Qed.
Lemma spine_prefix : forall es s r es' r', spine s es r -> spine s es' r' -> length es = length es' -> es = es' /\ r = r'.
Proof.
  induction es as [|a es IH]; intros s r es' r' H H' L; destruct es' as [|a' es']; try discriminate.
  - inversion H; inversion H'; subst; auto.
  - apply spine_pair in H as [d [E H]]. apply spine_pair in H' as [d' [E' H']]. rewrite E in E'. inversion E'; subst.
    destruct (IH _ _ _ _ H H') as [-> ->]; auto.
Qed.
Lemma app_same : forall {A} (a a' b b' : list A), a ++ b = a' ++ b' -> length a = length a' -> a = a' /\ b = b'.
Proof.
  induction a as [|x a IH]; intros [|x' a'] b b' E L; try discriminate; auto.
  cbn in E. inversion E; subst. destruct (IH a' b b' H1) as [-> ->]; auto.
Qed.
Lemma vector_unique : forall e es es', vector e es -> vector e es' -> es = es'.
Proof. intros e es es' H H'. inversion H; subst; inversion H'; subst; auto. Qed.

Theorem pm_unique_all :
  (forall p e bs, pm p e bs -> forall bs', pm p e bs' -> bs = bs') /\
  (forall ps es bs, pml ps es bs -> forall bs', pml ps es bs' -> bs = bs') /\
  (forall p es rows, pmr p es rows -> forall rows', pmr p es rows' -> rows = rows') /\
  (forall tl e bs, pmt tl e bs -> forall bs', pmt tl e bs' -> bs = bs').
Proof.
  apply pm_mutind.
  - intros e bs' H. inversion H; auto.
  - intros x e bs' H. inversion H; auto.
  - intros d l bs' H. inversion H; auto.
  - intros ps tl e es rest bs bt SP PL IHL PT IHT bs' H. inversion H as [| | |? ? ? es' rest' b1 b2 SP' PL' PT'| | |]; subst.
    assert (E : es = es' /\ rest = rest').
    { eapply spine_prefix; eauto. rewrite (pml_lengths _ _ _ PL), (pml_lengths _ _ _ PL'). auto. }
    destruct E as [-> ->]. rewrite (IHL _ PL'), (IHT _ PT'). auto.
  - intros ps p qs tl e es1 mids es2 rest b1 rows b2 bt SP NP PL IHL PR IHR PQ IHQ PT IHT bs' H.
    inversion H as [| | | |? ? ? ? ? es1' mids' es2' rest' b1' rows' b2' bt' SP' NP' PL' PR' PQ' PT'| |]; subst.
    apply nopair_spine in NP. apply nopair_spine in NP'.
    destruct (spine_unique _ _ _ _ _ SP NP SP' NP') as [E ->].
    apply app_same in E as [-> E]. 2:{ rewrite (pml_lengths _ _ _ PL), (pml_lengths _ _ _ PL'). auto. }
    apply app_same in E as [-> ->].
    2:{ apply (f_equal (@length obj)) in E. rewrite !app_length in E. rewrite (pml_lengths _ _ _ PQ), (pml_lengths _ _ _ PQ') in E. lia. }
    rewrite (IHL _ PL'), (IHR _ PR'), (IHQ _ PQ'), (IHT _ PT'). auto.
  - intros ps e es bs V PL IHL bs' H. inversion H as [| | | | |? ? es' ? V' PL'|]; subst.
    rewrite (vector_unique _ _ _ V' V) in PL'. auto.
  - intros ps p qs e es1 mids es2 b1 rows b2 V PL IHL PR IHR PQ IHQ bs' H.
    inversion H as [| | | | | |? ? ? ? es1' mids' es2' b1' rows' b2' V' PL' PR' PQ']; subst.
    pose proof (vector_unique _ _ _ V V') as E.
    apply app_same in E as [-> E]. 2:{ rewrite (pml_lengths _ _ _ PL), (pml_lengths _ _ _ PL'). auto. }
    apply app_same in E as [-> ->].
    2:{ apply (f_equal (@length obj)) in E. rewrite !app_length in E. rewrite (pml_lengths _ _ _ PQ), (pml_lengths _ _ _ PQ') in E. lia. }
    rewrite (IHL _ PL'), (IHR _ PR'), (IHQ _ PQ'). auto.
  - intros bs' H. inversion H; auto.
  - intros p ps e es b bs P IHp PL IHL bs' H. inversion H; subst. erewrite IHp, IHL by eauto. auto.
  - intros p rows' H. inversion H; auto.
  - intros p e es b rows P IHp PR IHR rows' H. inversion H; subst. erewrite IHp, IHR by eauto. auto.
  - intros rest E bs' H. inversion H; auto.
  - intros t rest b P IHp bs' H. inversion H; subst. auto.
Qed.

(** * The shape of the bindings *)
(** [nested d v]: a list of lists ... of lists, d deep *)
Fixpoint nested (d : nat) (v : obj) : Prop :=
  match d with O => True | S d => exists l, to_list v = Some l /\ Forall (nested d) l end.
Lemma vars_shift : forall p d, vars d p = map (fun v => (fst v, snd v + d)) (vars 0 p).
Proof.
  assert (FM : forall ps, Forall (fun p => forall d, vars d p = map (fun v => (fst v, snd v + d)) (vars 0 p)) ps ->
    forall d, flat_map (vars d) ps = map (fun v => (fst v, snd v + d)) (flat_map (vars 0) ps)).
  { induction 1; intros d; cbn; auto. rewrite map_app, <- H, <- IHForall. auto. }
  assert (SH : forall p d, (forall d, vars d p = map (fun v => (fst v, snd v + d)) (vars 0 p)) ->
    vars (S d) p = map (fun v => (fst v, snd v + d)) (vars 1 p)).
  { intros p d H. rewrite (H 1), (H (S d)), map_map. cbn. apply map_ext. intros [x k]. cbn. f_equal. lia. }
  intros p. induction p using pat_ind_strong; intros dd; cbn [vars]; auto.
  - rewrite map_app. rewrite (FM ps H dd). f_equal. destruct tl as [t|]; auto.
  - rewrite !map_app. rewrite (FM ps H dd), (FM qs H0 dd), <- SH by auto. do 3 f_equal. destruct tl as [t|]; auto.
  - rewrite !map_app. rewrite (FM ps H dd), (FM qs H0 dd), <- SH by auto. auto.
Qed.
Definition shaped (v : obj * nat) (b : obj) : Prop := nested (snd v) b.
Lemma columns_shaped : forall vs rows, Forall (fun r => Forall2 shaped vs r) rows ->
  Forall2 shaped (map (fun v => (fst v, snd v + 1)) vs) (columns (length vs) rows).
Proof.
  intros vs rows H.
  assert (G : forall k ws, (forall i, i < length ws -> nth i ws (ONull, 0) = nth (k + i) vs (ONull, 0)) -> k + length ws <= length vs ->
    Forall2 shaped (map (fun v => (fst v, snd v + 1)) ws) (map (fun i => of_list (map (fun r => nth i r ONull) rows)) (seq k (length ws)))).
  { intros k ws. revert k. induction ws as [|w ws IH]; intros k HN HL; cbn [map length seq]; constructor.
    - unfold shaped. cbn [fst snd]. rewrite Nat.add_1_r. cbn [nested]. eexists. split; [apply to_list_of_list|].
      apply Forall_map. eapply Forall_impl; [|exact H]. intros r F2.
      specialize (HN 0 ltac:(cbn; lia)). cbn [nth] in HN. rewrite Nat.add_0_r in HN. subst w.
      cbn [length] in HL. clear - F2 HL.
      assert (HK : k < length vs) by lia. clear HL. revert k HK. induction F2; intros k HK; [cbn in HK; lia|].
      destruct k; cbn; auto. apply IHF2. cbn in HK. lia.
    - apply IH.
      + intros i Hi. specialize (HN (S i) ltac:(cbn; lia)). cbn [nth] in HN. rewrite HN. f_equal. lia.
      + cbn in HL. lia. }
  apply (G 0 vs); auto.
Qed.
Theorem pm_shaped :
  (forall p e bs, pm p e bs -> Forall2 shaped (vars 0 p) bs) /\
  (forall ps es bs, pml ps es bs -> Forall2 shaped (flat_map (vars 0) ps) bs) /\
  (forall p es rows, pmr p es rows -> Forall (fun r => Forall2 shaped (vars 0 p) r) rows) /\
  (forall tl e bs, pmt tl e bs -> Forall2 shaped (match tl with Some t => vars 0 t | None => [] end) bs).
Proof.
  apply pm_mutind; intros; cbn [vars flat_map]; repeat apply Forall2_app; auto.
  - constructor; [exact Logic.I|constructor].
  - rewrite (vars_shift p 1). apply columns_shaped; auto.
  - rewrite (vars_shift p 1). apply columns_shaped; auto.
Qed.

(** * datum->syntax makes flat values *)
Fixpoint plain (o : obj) : bool :=
  match o with
  | OSyntax _ _ => false
  | OPair a d => plain a && plain d
  | OVec l => forallb plain l
  | _ => true
  end.
Lemma flat_nonlist : forall x l, (forall a d, x <> OPair a d) -> x <> ONull -> flat (OSyntax x l) -> fend (OSyntax x l).
Proof.
  intros x l H1 H2 F. right. repeat split; auto.
  - intros E. inversion E; congruence.
  - intros y r SP. inversion SP; subst. eapply H1; reflexivity.
Qed.
Theorem to_stx_flat : forall d, plain d = true -> flat (to_stx d).
Proof.
  assert (G : forall d, plain d = true -> flat (to_stx d) /\ ftail (totail d)).
  { intros d. induction d using obj_ind_strong; intros P; cbn in P; try discriminate;
      try (cbn [to_stx totail]; match goal with |- flat (OSyntax ?x ?l) /\ ftail _ =>
             assert (F : flat (OSyntax x l)) by (apply FlAtom; discriminate);
             split; [exact F|]; first [exists [], ONull; repeat split; auto; left; reflexivity
                                      | exists [], (OSyntax x l); repeat split; auto; apply flat_nonlist; [discriminate|discriminate|exact F]] end).
    - apply andb_true_iff in P as [P1 P2]. destruct (IHd1 P1) as [F1 _]. destruct (IHd2 P2) as [_ [es [t [E [FF FE]]]]].
      rewrite to_stx_pair. cbn [totail]. rewrite E. split.
      + change (OPair (to_stx d1) (chain es t)) with (chain (to_stx d1 :: es) t). apply FlList; auto.
      + exists (to_stx d1 :: es), t. auto.
    - assert (F : flat (OSyntax (OVec []) OFalse)) by (apply FlVec; constructor).
      split; [exact F|]. exists [], (OSyntax (OVec []) OFalse). repeat split; auto. apply flat_nonlist; [discriminate|discriminate|exact F].
    - assert (F : flat (to_stx (OVec l))).
      { cbn [to_stx]. apply FlVec. clear - H P. induction H; cbn; constructor; cbn in P; apply andb_true_iff in P; try tauto; apply H; tauto. }
      split; [exact F|]. exists [], (to_stx (OVec l)). repeat split; auto. cbn [to_stx] in *. apply flat_nonlist; [discriminate|discriminate|exact F]. }
  intros d P. apply G; auto.
Qed.
