(** Specification and lemmas for C56 and C57: what source code means.

    [compiles xf rb o c]: the expander turns [o] into code the compiler reads as
    the core expression [c]. *)
From Coq Require Import ZArith NArith Bool Ascii String List Arith Lia.
From Verif Require Import Base Heap HeapM Ast Sem Check Expand CheckThm ExpandProofs.
Import ListNotations.
Local Open Scope list_scope.

Section Compiles.
Variable evalx : obj -> option (list tr).
Variable lit : obj -> val.

Definition compiles (xf : xforms) (rb : bool) (o : obj) (c : expr) : Prop :=
  exists f o', expand_expr evalx f xf rb o = XOk o' /\ exists g, parse lit g o' = POk c.
Definition parses (os : list obj) (cs : list expr) : Prop := exists g, ploop (parse lit g) (olist os) = POk cs.
Definition compiles_body (xf : xforms) (os : list obj) (cs : list expr) : Prop :=
  exists f os', body_loop_of evalx f xf os = XOk os' /\ parses os' cs.

(** ** Compilation gives one result *)
Lemma xmono {A} (F : nat -> xres A) : (forall f, ap (F f) (F (S f))) -> forall f g a, f <= g -> F f = XOk a -> F g = XOk a.
Proof. intros M f g a L E. destruct (ap_le F M f g L) as [X|X]; congruence. Qed.
Lemma xdet {A} (F : nat -> xres A) : (forall f, ap (F f) (F (S f))) -> forall f g a b, F f = XOk a -> F g = XOk b -> a = b.
Proof.
  intros M f g a b E1 E2. destruct (le_lt_dec f g) as [L|L].
  - rewrite (xmono F M f g a L E1) in E2. congruence.
  - rewrite (xmono F M g f b ltac:(lia) E2) in E1. congruence.
Qed.
Lemma parse_det f g o a b : parse lit f o = POk a -> parse lit g o = POk b -> a = b.
Proof.
  intros E1 E2. apply (parse_mono _ _ (f + g)) in E1; [|lia]. apply (parse_mono _ _ (f + g)) in E2; [|lia]. congruence.
Qed.
Lemma ploop_mono' {A} (g h : obj -> pres A) l r : (forall o a, g o = POk a -> h o = POk a) -> ploop g l = POk r -> ploop h l = POk r.
Proof. intros G E. eapply ploop_mono; eauto. Qed.
Lemma parses_mono f g os cs : f <= g -> ploop (parse lit f) (olist os) = POk cs -> ploop (parse lit g) (olist os) = POk cs.
Proof. intros L. apply ploop_mono'. intros o a E. apply (parse_mono _ f); auto. Qed.
Lemma compiles_det xf rb o a b : compiles xf rb o a -> compiles xf rb o b -> a = b.
Proof.
  intros [f [o1 [E1 [g P1]]]] [f' [o2 [E2 [g' P2]]]].
  assert (o1 = o2) by (apply (xdet (fun f => expand_expr evalx f xf rb o) (fun f => proj1 (expand_mono1 evalx f) xf rb o) f f'); auto). subst o2.
  eapply parse_det; eauto.
Qed.
Lemma parses_det os a b : parses os a -> parses os b -> a = b.
Proof. intros [f E1] [g E2]. apply (parses_mono _ (f + g)) in E1; [|lia]. apply (parses_mono _ (f + g)) in E2; [|lia]. congruence. Qed.
Lemma compiles_body_det xf os a b : compiles_body xf os a -> compiles_body xf os b -> a = b.
Proof.
  intros [f [o1 [E1 P1]]] [f' [o2 [E2 P2]]].
  assert (o1 = o2) by (apply (xdet (fun f => body_loop_of evalx f xf os) (fun f => proj1 (proj2 (proj2 (expand_mono1 evalx f))) xf os) f f'); auto). subst o2.
  eapply parses_det; eauto.
Qed.
Lemma parses_nil : parses [] []. Proof. exists 0. reflexivity. Qed.
Lemma parses_cons o os g c cs : parse lit g o = POk c -> parses os cs -> parses (o :: os) (c :: cs).
Proof.
  intros E [g' P]. exists (g + g'). cbn [olist ploop]. rewrite (parse_mono _ g _ _ _ E) by lia. cbn [pbind].
  rewrite (parses_mono g' (g + g') os cs ltac:(lia) P). reflexivity.
Qed.
Lemma parses_Forall2 os cs : parses os cs <-> Forall2 (fun o c => exists g, parse lit g o = POk c) os cs.
Proof.
  split.
  - intros [g P]. revert cs P. induction os as [|o os IH]; intros cs P; cbn [olist ploop] in P.
    + injection P as <-. constructor.
    + apply pbind_ok in P as [a [E P]]. apply pbind_ok in P as [q [E2 P]]. injection P as <-. constructor; eauto.
  - induction 1 as [|o c os cs [g E] _ IH]; [apply parses_nil|eapply parses_cons; eauto].
Qed.

(** ** Internal definitions

    A body is a sequence of definitions and expressions. *)
Inductive item : Type := IExpr (c : expr) | IDef (ids : list ident) (c : expr).
(** The items one form of a body stands for: the form itself once its macros are
    expanded; a definition; or, for a begin form, the items of its parts. *)
Definition no_form (o : obj) : Prop :=
  forall k, In k ["begin"; "define-syntaxes"; "define-values"]%string -> forall q, o <> OPair (sym k) q.
Definition expands (xf : xforms) (rb : bool) (o o' : obj) : Prop := exists f, expand_expr evalx f xf rb o = XOk o'.
Inductive items (xf : xforms) : obj -> list item -> Prop :=
| ItExpr o o' g c : expands xf false o o' -> no_form o' -> parse lit g o' = POk c -> items xf o [IExpr c]
| ItDef o ids rhs xs c : expands xf false o (olist [sym "define-values"; olist ids; rhs]) ->
    Forall2 (fun i x => pident i = POk x) ids xs -> compiles xf true rhs c -> items xf o [IDef xs c]
| ItBegin o os its : expands xf false o (OPair (sym "begin") (olist os)) -> os <> [] -> items_all xf os its -> items xf o its
with items_all (xf : xforms) : list obj -> list item -> Prop :=
| IaNil : items_all xf [] []
| IaCons o os a b : items xf o a -> items_all xf os b -> items_all xf (o :: os) (a ++ b).
Scheme items_i := Minimality for items Sort Prop with items_all_i := Minimality for items_all Sort Prop.
Combined Scheme items_ind2 from items_i, items_all_i.

(** The variables a sequence of items defines. *)
Definition item_ids (i : item) : list ident := match i with IExpr _ => [] | IDef xs _ => xs end.
Definition defined (l : list item) : list ident := List.concat (map item_ids l).

Variable prim : N -> list val -> heap -> option presult.
Notation eval := (eval prim).
(** Running the items from the first definition on: [k] is the cell of the next
    variable to be defined. *)
Inductive run_items (t : bool) (r : lenv) : store -> nat -> list item -> res -> store -> Prop :=
| RiLast s k c x s1 : eval t r s c x s1 -> run_items t r s k [IExpr c] x s1
| RiExpr s k c l vs s1 x s2 : l <> [] -> eval t r s c (RVals vs) s1 -> run_items t r s1 k l x s2 -> run_items t r s k (IExpr c :: l) x s2
| RiExprErr s k c l y s1 : l <> [] -> eval t r s c (RErr y) s1 -> run_items t r s k (IExpr c :: l) (RErr y) s1
| RiDef s k xs c l vs s1 x s2 : eval t r s c (RVals vs) s1 -> List.length vs = List.length xs ->
    run_items t r (set_cells (seq k (List.length xs)) vs s1) (k + List.length xs) l x s2 -> run_items t r s k (IDef xs c :: l) x s2
| RiDefBad s k xs c l vs s1 : eval t r s c (RVals vs) s1 -> List.length vs <> List.length xs ->
    run_items t r s k (IDef xs c :: l) (RErr (ErrResults (List.length xs) (List.length vs))) s1
| RiDefErr s k xs c l y s1 : eval t r s c (RErr y) s1 -> run_items t r s k (IDef xs c :: l) (RErr y) s1.
(** Running a body: expressions before the first definition see the variables
    around the body; from there on every variable defined in the rest of the body
    is in scope, and holds no value until its definition has run. *)
Inductive run_body (t : bool) (r : lenv) : store -> list item -> res -> store -> Prop :=
| RbLast s c x s1 : eval t r s c x s1 -> run_body t r s [IExpr c] x s1
| RbExpr s c l vs s1 x s2 : l <> [] -> eval t r s c (RVals vs) s1 -> run_body t r s1 l x s2 -> run_body t r s (IExpr c :: l) x s2
| RbExprErr s c l y s1 : l <> [] -> eval t r s c (RErr y) s1 -> run_body t r s (IExpr c :: l) (RErr y) s1
| RbDefs s xs c l x s1 : let all := IDef xs c :: l in
    run_items t (bind_env (defined all) (List.length (cells_of s)) r)
      (add_cells (repeat VUnbound (List.length (defined all))) s) (List.length (cells_of s)) all x s1 ->
    run_body t r s all x s1.

(** ** Expanding a body *)
Lemma expand_det xf rb o a b : expands xf rb o a -> expands xf rb o b -> a = b.
Proof.
  intros [f E1] [g E2]. apply (xdet (fun f => expand_expr evalx f xf rb o) (fun f => proj1 (expand_mono1 evalx f) xf rb o) f g); auto.
Qed.
(** The letrec-values clause of a pending item. *)
Definition seq_expr (c : expr) : expr := ELet [] [c; EValues []].
Definition clause_of (i : item) : list ident * expr :=
  match i with IExpr c => ([], seq_expr c) | IDef xs c => (xs, c) end.
Fixpoint split_last (l : list item) : list item * expr :=
  match l with
  | [] => ([], EUnbound)
  | [IExpr c] => ([], c)
  | [IDef _ c] => ([], c)
  | i :: r => let '(a, c) := split_last r in (i :: a, c)
  end.
Fixpoint body_code (l : list item) : list expr :=
  match l with
  | [] => []
  | IExpr c :: r => c :: body_code r
  | IDef _ _ :: _ => let '(a, c) := split_last l in [ELetrec (map clause_of a) [c]]
  end.
Definition ends_in_expr (l : list item) : Prop := exists a c, l = a ++ [IExpr c].

(** a pending binding, as code *)
Definition pend (d : obj * obj) (i : list ident * expr) : Prop :=
  exists ids, fst d = olist ids /\ Forall2 (fun i x => pident i = POk x) ids (fst i) /\ exists g, parse lit g (snd d) = POk (snd i).
Notation eexp := (expand_expr evalx).
Notation bloop := (body_loop evalx).
Lemma no_form_is o : no_form o -> forall k, In k ["begin"; "define-syntaxes"; "define-values"]%string -> form_is k o = false.
Proof. intros N k K. destruct (form_is k o) eqn:E; auto. apply form_is_spec in E as [q E]. exfalso. exact (N k K q E). Qed.
Lemma ids_parse ids xs : Forall2 (fun i x => pident i = POk x) ids xs -> ploop pident (olist ids) = POk xs.
Proof. induction 1 as [|i x ids xs E _ IH]; auto. cbn [olist ploop]. rewrite E. cbn [pbind]. rewrite IH. reflexivity. Qed.
Lemma parse_seq o g c : parse lit g o = POk c ->
  exists g', parse lit g' (olist [sym "let-values"; ONull; o; olist [sym "values"]]) = POk (seq_expr c).
Proof. intros E. exists (S (S g)). change (parse lit (S (S g)) (olist [sym "let-values"; ONull; o; olist [sym "values"]])) with
  (do es <- (do x <- parse lit (S g) o; do q <- POk [EValues []]; POk (x :: q)); POk (ELet [] es)).
  rewrite (parse_mono _ g (S g) _ _ E) by lia. reflexivity. Qed.
Definition pbinding (g : nat) (b : obj) : pres (list ident * expr) :=
  do i <- pcar b; do ids <- ploop pident i; do q <- pcdr b; do e <- pcar q; do x <- parse lit g e; POk (ids, x).
Lemma pbinding_mono f g b a : f <= g -> pbinding f b = POk a -> pbinding g b = POk a.
Proof.
  intros L H. unfold pbinding in *. destruct (pcar b) as [i| | |]; try discriminate. cbn [pbind] in *. destruct (ploop pident i) as [ids| | |]; try discriminate. cbn [pbind] in *.
  destruct (pcdr b) as [q| | |]; try discriminate. cbn [pbind] in *. destruct (pcar q) as [e| | |]; try discriminate. cbn [pbind] in *.
  destruct (parse lit f e) as [x| | |] eqn:E; try discriminate. rewrite (parse_mono _ f g _ _ E L). exact H.
Qed.
Lemma pend_parse ds is : Forall2 pend ds is -> exists g, ploop (pbinding g) (of_list (map (fun b => of_list [fst b; snd b]) ds)) = POk is.
Proof.
  induction 1 as [|[a b] [xs e] ds is [ids [E1 [E2 [g' E3]]]] _ [g'' IH]]; [exists 0; reflexivity|]. simpl in E1, E2, E3.
  exists (g' + g''). cbn [map of_list ploop fst snd]. unfold pbinding at 1. cbn [pcar pcdr pbind]. rewrite E1, (ids_parse _ _ E2). cbn [pbind].
  rewrite (parse_mono _ g' (g' + g'') _ _ E3) by lia. cbn [pbind].
  rewrite (ploop_mono' (pbinding g'') (pbinding (g' + g'')) _ is); auto. intros o q. apply pbinding_mono. lia.
Qed.
Lemma parse_let k ds is os cs : In k ["let-values"; "letrec-values"]%string -> Forall2 pend ds is -> parses os cs ->
  exists g', parse lit g' (let_form (sym k) ds os) = POk ((if String.eqb k "let-values" then ELet else ELetrec) is cs).
Proof.
  intros K H [g E]. destruct (pend_parse _ _ H) as [g' X]. exists (S (g + g')). unfold let_form. set (B := of_list (map _ ds)) in *.
  assert (P : parse lit (S (g + g')) (OPair (sym k) (OPair B (of_list os))) =
    do bs <- ploop (pbinding (g + g')) B; do es <- ploop (parse lit (g + g')) (olist os); POk ((if String.eqb k "let-values" then ELet else ELetrec) bs es)).
  { destruct K as [<-|[<-|[]]]; reflexivity. }
  rewrite P, (ploop_mono' (pbinding g') (pbinding (g + g')) _ is); auto; [|intros o q; apply pbinding_mono; lia]. cbn [pbind].
  rewrite (parses_mono g (g + g') os cs ltac:(lia) E). reflexivity.
Qed.
Lemma parses_one o g c : parse lit g o = POk c -> parses [o] [c].
Proof. intros E. eapply parses_cons; eauto. apply parses_nil. Qed.

(** Expanding the forms [a :: rest] with [ds] pending. *)
Lemma loop_step f xf a rest ds o' r : expand_expr evalx f xf false a = XOk o' ->
  (exists g, (if form_is "begin" o' then
        match to_list o' with
        | Some (_ :: a :: more) => body_loop evalx g xf a (more ++ rest) ds
        | _ => XErr
        end
      else if form_is "define-syntaxes" o' then XErr
      else if form_is "define-values" o' then
        match rest, to_list o' with
        | b :: r, Some (_ :: ids :: value :: _) =>
            let! v := expand_expr evalx g xf true value in
            body_loop evalx g xf b r ((ids, v) :: ds)
        | _, _ => XErr
        end
      else match rest with
      | b :: r =>
          match ds with
          | [] => let! tl := body_loop evalx g xf b r [] in XOk (o' :: tl)
          | _ => body_loop evalx g xf b r
                   ((ONull, of_list [sym "let-values"; ONull; o'; of_list [sym "values"]]) :: ds)
          end
      | [] =>
          match ds with
          | [] => XOk [o']
          | _ => XOk [let_form (sym "letrec-values") (rev ds) [o']]
          end
      end) = XOk r) -> exists g, body_loop evalx g xf a rest ds = XOk r.
Proof.
  intros E [g G]. exists (S (f + g)). rewrite body_loop_S. rewrite (expand_le evalx f (f + g) xf false a o' ltac:(lia) E). cbn [xbind].
  destruct (form_is "begin" o').
  { destruct (to_list o') as [[|h [|b more]]|]; try discriminate. rewrite (loop_le evalx g (f + g) xf b (more ++ rest) ds r ltac:(lia) G). reflexivity. }
  destruct (form_is "define-syntaxes" o'); [discriminate|].
  destruct (form_is "define-values" o').
  { destruct rest as [|b q]; [discriminate|]. destruct (to_list o') as [[|h [|ids [|v more]]]|]; try discriminate.
    destruct (expand_expr evalx g xf true v) as [w| |] eqn:V; try discriminate. rewrite (expand_le evalx g (f + g) xf true v w ltac:(lia) V). cbn [xbind] in *.
    rewrite (loop_le evalx g (f + g) xf b q _ r ltac:(lia) G). reflexivity. }
  destruct rest as [|b q]; auto. destruct ds as [|d ds].
  - destruct (body_loop evalx g xf b q []) as [w| |] eqn:V; try discriminate. rewrite (loop_le evalx g (f + g) xf b q [] w ltac:(lia) V). exact G.
  - apply (loop_le evalx g (f + g)); auto. lia.
Qed.
(** [code l ds cs]: the code of a body that still has the items [l] to come, with
    the bindings [is] pending (latest first). *)
Definition rest_code (is : list (list ident * expr)) (l : list item) : list expr :=
  match is with
  | [] => body_code l
  | _ => let '(a, c) := split_last l in [ELetrec (rev is ++ map clause_of a) [c]]
  end.
Lemma split_last_app l c : split_last (l ++ [IExpr c]) = (l, c).
Proof.
  induction l as [|i l IH]; auto. cbn [app]. destruct l as [|j l]; [destruct i; reflexivity|].
  destruct i as [d|xs d]; cbn [app split_last] in *; rewrite IH; reflexivity.
Qed.
Lemma items_nonempty xf : (forall o a, items xf o a -> a <> []) /\ (forall os a, items_all xf os a -> os <> [] -> a <> []).
Proof.
  apply items_ind2; intros; try discriminate; auto; try congruence.
  destruct a; [congruence|discriminate].
Qed.
Definition done (xf : xforms) (ds : list (obj * obj)) (a : obj) (rest : list obj) (cs : list expr) : Prop :=
  exists g os, body_loop evalx g xf a rest ds = XOk os /\ parses os cs.
Lemma rest_code_expr c l is : l <> [] ->
  rest_code is (IExpr c :: l) = match is with [] => c :: rest_code [] l | _ => rest_code (([], seq_expr c) :: is) l end.
Proof.
  intros N. destruct is as [|i is]; auto. unfold rest_code. destruct l as [|j l]; [congruence|].
  change (split_last (IExpr c :: j :: l)) with (let '(a, d) := split_last (j :: l) in (IExpr c :: a, d)). destruct (split_last (j :: l)) as [a d]. simpl. rewrite <- !app_assoc. reflexivity.
Qed.
Lemma rest_code_def xs c l is : l <> [] -> rest_code is (IDef xs c :: l) = rest_code ((xs, c) :: is) l.
Proof.
  intros N. destruct l as [|j l]; [congruence|]. unfold rest_code.
  assert (E : split_last (IDef xs c :: j :: l) = (let '(a, d) := split_last (j :: l) in (IDef xs c :: a, d))) by reflexivity.
  destruct is as [|i is]; cbn [body_code]; rewrite E; destruct (split_last (j :: l)) as [a d]; simpl; auto. rewrite <- !app_assoc. reflexivity.
Qed.
(** The forms of a body, flattened, one item at a time. *)
Lemma body_items xf : 
  (forall o a, items xf o a -> forall rest l, (rest = [] -> l = []) -> 
     (forall b r, rest = b :: r -> l <> [] /\ forall ds is, Forall2 pend ds is -> done xf ds b r (rest_code is l)) ->
     ends_in_expr (a ++ l) ->
     forall ds is, Forall2 pend ds is -> done xf ds o rest (rest_code is (a ++ l))) /\
  (forall os a, items_all xf os a -> forall rest l, (rest = [] -> l = []) ->
     (forall b r, rest = b :: r -> l <> [] /\ forall ds is, Forall2 pend ds is -> done xf ds b r (rest_code is l)) ->
     ends_in_expr (a ++ l) ->
     forall o q, os ++ rest = o :: q -> forall ds is, Forall2 pend ds is -> done xf ds o q (rest_code is (a ++ l))).
Proof.
  apply items_ind2.
  - intros o o' g c [f E] N P rest l RL H X ds is D. destruct rest as [|b r].
    + rewrite (RL eq_refl). cbn [app]. destruct (loop_step f xf o [] ds o' (match ds with [] => [o'] | _ => [let_form (sym "letrec-values") (rev ds) [o']] end) E) as [g' G].
      { exists 0. rewrite !(no_form_is o') by (auto; simpl; auto). destruct ds; reflexivity. }
      exists g'. eexists. split; [exact G|]. destruct D as [|d i ds is D1 D].
      * eapply parses_one; eauto.
      * assert (PL : Forall2 pend (rev (d :: ds)) (rev (i :: is))).
        { clear -D1 D. assert (A : Forall2 pend (d :: ds) (i :: is)) by (constructor; auto). revert A. generalize (d :: ds) (i :: is). clear.
          induction 1; simpl; [constructor|]. apply Forall2_app; auto. }
        destruct (parse_let "letrec-values" _ _ [o'] [c] ltac:(simpl; auto) PL (parses_one _ _ _ P)) as [g1 G1].
        cbn [rest_code]. cbn [split_last map]. rewrite app_nil_r. eapply parses_one. exact G1.
    + destruct (H b r eq_refl) as [NL HL]. cbn [app]. rewrite rest_code_expr by auto. destruct D as [|d i ds is D1 D].
      * destruct (HL [] [] (Forall2_nil _)) as [g1 [os [G1 P1]]].
        destruct (loop_step f xf o (b :: r) [] o' (o' :: os) E) as [g2 G2].
        { exists g1. rewrite !(no_form_is o') by (auto; simpl; auto). rewrite G1. reflexivity. }
        exists g2, (o' :: os). split; auto. eapply parses_cons; eauto.
      * destruct (HL ((ONull, of_list [sym "let-values"; ONull; o'; of_list [sym "values"]]) :: d :: ds) (([], seq_expr c) :: i :: is)) as [g1 [os [G1 P1]]].
        { constructor; [|constructor; auto]. exists []. split; [reflexivity|]. split; [constructor|]. apply parse_seq with (g := g). exact P. }
        destruct (loop_step f xf o (b :: r) (d :: ds) o' os E) as [g2 G2].
        { exists g1. rewrite !(no_form_is o') by (auto; simpl; auto). exact G1. }
        exists g2, os. split; auto.
  - intros o ids rhs xs c [f E] I [f1 [v [V [g P]]]] rest l RL H X ds is D. destruct rest as [|b r].
    { rewrite (RL eq_refl) in X. destruct X as [a [d X]]. cbn in X. destruct a as [|? [|]]; discriminate. }
    destruct (H b r eq_refl) as [NL HL]. cbn [app]. rewrite rest_code_def by auto.
    destruct (HL ((olist ids, v) :: ds) ((xs, c) :: is)) as [g1 [os [G1 P1]]].
    { constructor; auto. exists ids. repeat split; eauto. }
    destruct (loop_step f xf o (b :: r) ds _ os E) as [g2 G2].
    { exists (f1 + g1). rewrite to_olist. change (form_is "begin" (olist [sym "define-values"; olist ids; rhs])) with false.
      change (form_is "define-syntaxes" (olist [sym "define-values"; olist ids; rhs])) with false.
      change (form_is "define-values" (olist [sym "define-values"; olist ids; rhs])) with true. cbv iota.
      rewrite (expand_le evalx f1 (f1 + g1) xf true rhs v ltac:(lia) V). cbn [xbind]. apply (loop_le evalx g1); auto. lia. }
    exists g2, os. split; auto.
  - intros o os its [f E] NE _ IH rest l RL H X ds is D. destruct os as [|a more]; [congruence|].
    destruct (IH rest l RL H X a (more ++ rest) eq_refl ds is D) as [g1 [q [G1 P1]]].
    destruct (loop_step f xf o rest ds _ q E) as [g2 G2].
    { exists g1. rewrite <- olist_cons, to_olist. rewrite olist_cons. change (form_is "begin" (OPair (sym "begin") (olist (a :: more)))) with true. exact G1. }
    exists g2, q. split; auto.
  - intros rest l RL H X o q EQ ds is D. simpl in EQ. destruct (H o q EQ) as [_ HL]. apply HL; auto.
  - intros o os a b IO HO IA HA rest l RL H X o1 q EQ ds is D. cbn [app] in EQ. injection EQ as <- <-. rewrite <- app_assoc.
    apply HO; auto.
    + intros E. apply app_eq_nil in E as [-> E]. inversion IA; subst. rewrite (RL eq_refl). reflexivity.
    + intros b1 r1 E.
      assert (NB : b ++ l <> []).
      { intros EN. apply app_eq_nil in EN as [EB EL]. destruct os as [|o2 os].
        - simpl in E. destruct (H b1 r1 E). contradiction.
        - apply (proj2 (items_nonempty xf) _ _ IA); [discriminate|auto]. }
      split; auto. intros ds1 is1 D1. apply (HA rest l); auto. destruct X as [pre [c X]]. rewrite <- app_assoc in X.
      destruct (exists_last NB) as [w [z Z]]. rewrite Z in X. rewrite app_assoc in X. apply app_inj_tail in X as [_ ->]. exists w, c. exact Z.
    + rewrite app_assoc. auto.
Qed.
Lemma body_compiles xf os l : items_all xf os l -> ends_in_expr l -> compiles_body xf os (body_code l).
Proof.
  intros I X. destruct os as [|a r]; [inversion I; subst; destruct X as [[|] [c E]]; discriminate|].
  destruct (proj2 (body_items xf) _ _ I [] [] (fun _ => eq_refl)) with (o := a) (q := r) (ds := @nil (obj * obj)) (is := @nil (list ident * expr)) as [g [q [G P]]].
  - intros b r' E. discriminate.
  - rewrite app_nil_r. auto.
  - rewrite app_nil_r. auto.
  - constructor.
  - rewrite app_nil_r in P. exists (S g), q. split; auto.
Qed.

(** ** What that code does *)
Notation evseq := (evseq prim).
Notation evrec := (evrec prim).
Notation evbinds := (evbinds prim).
Lemma eval_let_inv t r s bs body x s2 : eval t r s (ELet bs body) x s2 ->
  (exists vs s1, evbinds t r s bs (inl vs) s1 /\
     evseq t (bind_env (List.concat (map fst bs)) (List.length (cells_of s1)) r) (add_cells vs s1) body x s2) \/
  (exists y, x = RErr y /\ evbinds t r s bs (inr y) s2).
Proof. intros H. inversion H; subst; eauto 6. Qed.
Lemma eval_letrec_inv t r s bs body x s2 : eval t r s (ELetrec bs body) x s2 ->
  let base := List.length (cells_of s) in let r1 := bind_env (List.concat (map fst bs)) base r in
  let s0 := add_cells (repeat VUnbound (List.length (List.concat (map fst bs)))) s in
  (exists s1, evrec t r1 s0 base bs None s1 /\ evseq t r1 s1 body x s2) \/
  (exists y, x = RErr y /\ evrec t r1 s0 base bs (Some y) s2).
Proof. intros H. inversion H; subst; eauto 6. Qed.
Lemma eval_seq_expr t r s c x s' :
  eval t r s (seq_expr c) x s' <-> (exists vs, eval t r s c (RVals vs) s' /\ x = RVals []) \/ (exists y, eval t r s c (RErr y) s' /\ x = RErr y).
Proof.
  assert (A : add_cells [] s = s) by (destruct s; unfold add_cells; simpl; rewrite app_nil_r; auto).
  split.
  - intros H. apply eval_let_inv in H as [[vs [s1 [B Q]]]|[y [_ B]]].
    + inversion B; subst. cbn [map List.concat bind_env] in Q. rewrite A in Q. inversion Q as [| |? ? ? ? ? ? ws s3 ? ? E1 E2|? ? ? ? ? ? y s3 E1]; subst.
      * left. exists ws. inversion E2; subst. match goal with K : Sem.eval _ _ _ _ (EValues _) _ _ |- _ => inversion K; subst end;
          match goal with K : evargs _ _ _ _ [] _ _ |- _ => inversion K; subst end. auto.
      * right. eauto.
    + inversion B.
  - intros [[vs [E ->]]|[y [E ->]]]; (eapply EvLet; [constructor|]); cbn [map List.concat bind_env]; rewrite A.
    + eapply EsCons; [exact E|]. apply EsLast. apply EvValues. constructor.
    + apply EsErr. exact E.
Qed.
Lemma evrec_items t r : forall a s k o s', evrec t r s k (map clause_of a) o s' ->
  (forall c x s'', o = None -> eval t r s' c x s'' -> run_items t r s k (a ++ [IExpr c]) x s'') /\
  (forall c y, o = Some y -> run_items t r s k (a ++ [IExpr c]) (RErr y) s').
Proof.
  induction a as [|i a IH]; intros s k o s' H.
  - inversion H; subst. split; [intros; simpl; apply RiLast; auto|intros; discriminate].
  - assert (NE : forall c, a ++ [IExpr c] <> []) by (intros c; destruct a; discriminate). cbn [map] in H. destruct i as [c0|xs c0]; cbn [clause_of] in H.
    + inversion H as [|? ? ? ? ? ? ? vs s1 ? ? E L R|? ? ? ? ? ? ? vs s1 E L|? ? ? ? ? ? ? y s1 E]; subst.
      * apply eval_seq_expr in E as [[ws [E Q]]|[y [E Q]]]; [|discriminate]. injection Q as ->. simpl in R. rewrite Nat.add_0_r in R. destruct (IH _ _ _ _ R) as [H1 H2].
        split; intros; cbn [app]; eapply RiExpr; eauto.
      * apply eval_seq_expr in E as [[ws [E Q]]|[y [E Q]]]; [|discriminate]. injection Q as ->. simpl in L. congruence.
      * apply eval_seq_expr in E as [[ws [E Q]]|[z [E Q]]]; [discriminate|]. injection Q as ->. split; [discriminate|]. intros c y0 E0. injection E0 as <-. cbn [app]. apply RiExprErr; auto.
    + inversion H as [|? ? ? ? ? ? ? vs s1 ? ? E L R|? ? ? ? ? ? ? vs s1 E L|? ? ? ? ? ? ? y s1 E]; subst.
      * destruct (IH _ _ _ _ R) as [H1 H2]. split; intros; cbn [app]; eapply RiDef; eauto.
      * split; [discriminate|]. intros c y0 E0. injection E0 as <-. cbn [app]. eapply RiDefBad; eauto.
      * split; [discriminate|]. intros c y0 E0. injection E0 as <-. cbn [app]. eapply RiDefErr; eauto.
Qed.
Lemma items_evrec t r : forall a c s k x s'', run_items t r s k (a ++ [IExpr c]) x s'' ->
  (exists s', evrec t r s k (map clause_of a) None s' /\ eval t r s' c x s'') \/
  (exists y, x = RErr y /\ evrec t r s k (map clause_of a) (Some y) s'').
Proof.
  induction a as [|i a IH]; intros c s k x s'' H; cbn [app] in H.
  - inversion H; subst; try contradiction. left. exists s. split; auto. constructor.
  - assert (NE : a ++ [IExpr c] <> []) by (destruct a; discriminate). inversion H as [? ? ? ? ? E EQ|? ? c0 ? vs s1 ? ? N E R EQ|? ? c0 ? y s1 N E EQ|? ? xs c0 ? vs s1 ? ? E L R EQ|? ? xs c0 ? vs s1 E L EQ|? ? xs c0 ? y s1 E EQ]; subst; cbn [map clause_of].
    + exfalso. destruct a; discriminate.
    + destruct (IH _ _ _ _ _ R) as [[s' [E1 E2]]|[y [-> E1]]].
      * left. exists s'. split; auto. eapply ErCons with (vs := []); [apply eval_seq_expr; left; eauto|reflexivity|]. simpl. rewrite Nat.add_0_r. exact E1.
      * right. exists y. split; auto. eapply ErCons with (vs := []); [apply eval_seq_expr; left; eauto|reflexivity|]. simpl. rewrite Nat.add_0_r. exact E1.
    + right. exists y. split; auto. eapply ErErr. apply eval_seq_expr. right. eauto.
    + destruct (IH _ _ _ _ _ R) as [[s' [E1 E2]]|[y [-> E1]]].
      * left. exists s'. split; auto. eapply ErCons; eauto.
      * right. exists y. split; auto. eapply ErCons; eauto.
    + right. eexists. split; [reflexivity|]. eapply ErBad; eauto.
    + right. eexists. split; [reflexivity|]. eapply ErErr; eauto.
Qed.
Lemma clauses_ids a c : List.concat (map fst (map clause_of a)) = defined (a ++ [IExpr c]).
Proof.
  unfold defined. rewrite map_app, concat_app. simpl. rewrite !app_nil_r. f_equal. rewrite map_map. apply map_ext. intros [d|xs d]; reflexivity.
Qed.
Lemma body_code_meaning t r : forall l s x s', ends_in_expr l -> (evseq t r s (body_code l) x s' <-> run_body t r s l x s').
Proof.
  induction l as [|i l IH]; intros s x s' [a [c E]]; [destruct a; discriminate|]. destruct i as [d|xs d].
  - destruct l as [|j l].
    + cbn [body_code]. split.
      * intros H. inversion H; subst. apply RbLast; auto.
      * intros H. inversion H; subst; try contradiction. apply EsLast; auto.
    + assert (X : ends_in_expr (j :: l)).
      { destruct a as [|z a]; [destruct l; discriminate E|]. injection E as <- E. exists a, c. exact E. }
      assert (NB : exists b bs, body_code (j :: l) = b :: bs).
      { destruct j as [z|ys z]; cbn [body_code]; eauto. destruct (split_last (IDef ys z :: l)). eauto. }
      destruct NB as [b [bs NB]]. cbn [body_code] in NB |- *. rewrite NB. specialize (IH) as IH'.
      assert (IHX : forall s x s', evseq t r s (b :: bs) x s' <-> run_body t r s (j :: l) x s') by (intros; rewrite <- NB; apply (IH _ _ _ X)).
      split; intros H.
      * inversion H as [| |? ? ? ? ? ? vs s1 ? ? E1 E2|? ? ? ? ? ? y s1 E1]; subst; [eapply RbExpr; eauto; [discriminate|]; apply IHX; auto|apply RbExprErr; auto; discriminate].
      * inversion H as [|? ? ? vs s1 ? ? N E1 E2|? ? ? y s1 N E1|]; subst; [eapply EsCons; eauto; apply IHX; auto|apply EsErr; auto].
  - assert (A : a <> []) by (intros ->; destruct l; discriminate E). rewrite E.
    assert (BC : body_code (a ++ [IExpr c]) = [ELetrec (map clause_of a) [c]]).
    { destruct a as [|z a]; [congruence|]. injection E as <- E. pose proof (split_last_app (IDef xs d :: a) c) as SL. cbn [app] in SL |- *. cbn [body_code]. rewrite SL. reflexivity. }
    rewrite BC. clear IH.
    assert (RB : run_body t r s (a ++ [IExpr c]) x s' <->
      run_items t (bind_env (defined (a ++ [IExpr c])) (List.length (cells_of s)) r)
      (add_cells (repeat VUnbound (List.length (defined (a ++ [IExpr c])))) s) (List.length (cells_of s)) (a ++ [IExpr c]) x s').
    { rewrite <- E. split; [intros H; inversion H; subst; auto|apply RbDefs]. }
    rewrite RB. split.
    + intros H. inversion H as [|? ? ? ? ? ? E1| |]; subst.
      apply eval_letrec_inv in E1. cbv zeta in E1. rewrite (clauses_ids a c) in E1. destruct E1 as [[s1 [Q1 Q2]]|[y [-> Q1]]].
      * inversion Q2 as [|? ? ? ? ? ? E2| |]; subst. apply (proj1 (evrec_items _ _ _ _ _ _ _ Q1)); auto.
      * apply (proj2 (evrec_items _ _ _ _ _ _ _ Q1)); auto.
    + intros H. apply EsLast. apply items_evrec in H as [[s1 [E1 E2]]|[y [-> E1]]].
      * eapply EvLetrec; [reflexivity|reflexivity|rewrite (clauses_ids a c); exact E1|]. apply EsLast. rewrite (clauses_ids a c). exact E2.
      * eapply EvLetrecErr; [reflexivity|reflexivity|]. rewrite (clauses_ids a c). exact E1.
Qed.
End Compiles.
