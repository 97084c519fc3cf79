(** The optimisation passes preserve the meaning of expressions: the relation
    between expressions before and after a step of optimisation, and the relation
    between stores. *)
From Coq Require Import ZArith NArith Bool Ascii String List Arith Lia.
From Verif Require Import Base Heap HeapM Ast Sem Opt OptRel.
Import ListNotations.
Local Open Scope list_scope.

(** ** Shapes built by the passes *)

(** The result of let_values2 with given fresh symbols. *)
Fixpoint letn (bs : list (list ident * expr)) (tss : list (list ident)) (ids tmps : list ident) (body : list expr) : expr :=
  match bs, tss with
  | (xs, e) :: r, ts :: tr =>
      ECwv (ELam (Formals [] None) [e]) (ELam (Formals ts None) [letn r tr (xs ++ ids) (ts ++ tmps) body])
  | _, _ => EApp (ELam (Formals ids None) body) (map EVar tmps)
  end.
Definition sets (xs ts : list ident) : list expr :=
  match xs with
  | [] => [EValues []]
  | _ => map (fun p => ESet (fst p) (EVar (snd p))) (combine xs ts)
  end.
Fixpoint recsets (bs : list (list ident * expr)) (tss : list (list ident)) : list expr :=
  match bs, tss with
  | (xs, e) :: r, ts :: tr =>
      ECwv (ELam (Formals [] None) [e]) (ELam (Formals ts None) (sets xs ts)) :: recsets r tr
  | _, _ => []
  end.

(** Pushing a consumer inwards. *)
Inductive post : expr -> expr -> Prop :=
| PostSame e : post e e
| PostBegin es c : es <> [] -> post (EMvCall (EBegin es) c) (EBegin (into_last es c))
| PostIf a b d c : post (EMvCall (EIf a b d) c) (EIf a (EMvCall b c) (EMvCall d c)).

(** Expressions whose evaluation creates a procedure and does nothing else. *)
Definition literal (c : expr) : option (list clause) :=
  match c with
  | ELam fm b => Some [(fm, b)]
  | ECase (k :: r) => Some (k :: r)
  | _ => None
  end.
Definition single (e : expr) : bool :=
  match e with EConst _ | EVar _ | ELam _ _ => true | _ => false end.
Definition fm_ids (fm : formals) : list ident := req fm ++ match rest fm with Some x => [x] | None => [] end.

(** Every [set!] assigns a local variable, [xs] being the local variables around. *)
Fixpoint locals_only (xs : list ident) (e : expr) : bool :=
  match e with
  | EConst _ | EUnbound | EVar _ => true
  | EDefine _ e => locals_only xs e
  | ESet x e => memb x xs && locals_only xs e
  | ELam fm b => forallb (locals_only (fm_ids fm ++ xs)) b
  | ECase cls => forallb (fun c => forallb (locals_only (fm_ids (fst c) ++ xs)) (snd c)) cls
  | EBegin es => forallb (locals_only xs) es
  | EIf a b c => locals_only xs a && locals_only xs b && locals_only xs c
  | EApp f es => locals_only xs f && forallb (locals_only xs) es
  | ELet bs b => forallb (fun p => locals_only xs (snd p)) bs && forallb (locals_only (let_ids bs ++ xs)) b
  | ELetrec bs b =>
      forallb (fun p => locals_only (let_ids bs ++ xs) (snd p)) bs && forallb (locals_only (let_ids bs ++ xs)) b
  | EValues es | EMvValues es => forallb (locals_only xs) es
  | ECwv p c | EMvCall p c => locals_only xs p && locals_only xs c
  | EMvLet e fm b => locals_only xs e && locals_only (fm_ids fm ++ xs) b
  end.
(** Expressions in which the passes move nothing out of a procedure or into one:
    constants, variables, procedures, and definitions, assignments, conditionals,
    sequences and calls of variables made of them. *)
Fixpoint plain (e : expr) : bool :=
  match e with
  | EConst _ | EVar _ | ELam _ _ | ECase _ => true
  | EDefine _ e | ESet _ e => plain e
  | EBegin es | EValues es | EMvValues es => forallb plain es
  | EIf a b c => plain a && plain b && plain c
  | EApp (EVar _) es => forallb plain es
  | _ => false
  end.

Section Opt.
  Variable resv : ident -> Prop.   (* the symbols introduced by this step *)
  Variable unb : bool.             (* the program may contain #%make-unbound *)
  Variable vals : bool.            (* the step uses the variable [values] *)
  Variable base : nat.             (* literals are at the addresses below *)

  Definition okid (x : ident) : Prop := ~ resv x /\ (vals = true -> x <> values_id).
  Definition tmpid (x : ident) : Prop := resv x /\ (vals = true -> x <> values_id).
  Definition lit (v : val) : Prop :=
    match v with VPtr l => l < base | VUnbound => False | _ => True end.

  (** One step of optimisation, applied anywhere in an expression. *)
  Inductive opt : expr -> expr -> Prop :=
  | OConst v : lit v -> opt (EConst v) (EConst v)
  | OUnbound : unb = true -> opt EUnbound EUnbound
  | OVar x : ~ resv x -> opt (EVar x) (EVar x)
  | ODefine ids e e' : Forall okid ids -> opt e e' -> opt (EDefine ids e) (EDefine ids e')
  | OSet x e e' : okid x -> opt e e' -> opt (ESet x e) (ESet x e')
  | OLam fm b b' : Forall okid (fm_ids fm) -> opts b b' -> opt (ELam fm b) (ELam fm b')
  | OCase cls cls' : optcs cls cls' -> opt (ECase cls) (ECase cls')
  | OBegin es es' : opts es es' -> opt (EBegin es) (EBegin es')
  | OIf a b c a' b' c' : opt a a' -> opt b b' -> opt c c' -> opt (EIf a b c) (EIf a' b' c')
  | OApp f f' es es' : opt f f' -> opts es es' -> opt (EApp f es) (EApp f' es')
  | OValuesC es es' : opts es es' -> opt (EValues es) (EValues es')
  | OCwvC p p' c c' : opt p p' -> opt c c' -> opt (ECwv p c) (ECwv p' c')
  | OMvCall p p' c c' e' : opt p p' -> opt c c' -> post (EMvCall p' c') e' -> opt (EMvCall p c) e'
  | OMvLetC e e' xs b b' :
      Forall okid xs -> opt e e' -> opt b b' -> opt (EMvLet e (Formals xs None) b) (EMvLet e' (Formals xs None) b')
  | OMvValuesC es es' : opts es es' -> opt (EMvValues es) (EMvValues es')
  (* L0 *)
  | OCase1 fm b b' : Forall okid (fm_ids fm) -> opts b b' -> opt (ECase [(fm, b)]) (ELam fm b')
  | OLet0 b b' : opts b b' -> opt (ELet [] b) (EBegin b')
  | OLet1 xs e e' b b' :
      Forall okid xs -> opt e e' -> opts b b' ->
      opt (ELet [(xs, e)] b) (ECwv (ELam (Formals [] None) [e']) (ELam (Formals xs None) b'))
  | OLetN bs bs' b b' tss :
      unb = false -> optbs bs bs' -> opts b b' ->
      Forall okid (let_ids bs) -> NoDup (let_ids bs) ->
      Forall2 (fun p ts => List.length ts = List.length (fst p)) bs tss ->
      Forall tmpid (List.concat tss) -> NoDup (List.concat tss) ->
      opt (ELet bs b) (letn bs' tss [] [] b')
  | OLetrec0 b b' : opts b b' -> opt (ELetrec [] b) (EBegin b')
  | OLetrec bs bs' b b' tss :
      unb = false -> optbs bs bs' -> opts b b' -> b <> [] ->
      Forall okid (let_ids bs) -> NoDup (let_ids bs) ->
      Forall2 (fun p ts => List.length ts = List.length (fst p)) bs tss ->
      Forall tmpid (List.concat tss) -> NoDup (List.concat tss) ->
      opt (ELetrec bs b)
          (ECwv (ELam (Formals [] None) [EValues (repeat EUnbound (List.length (let_ids bs)))])
                (ELam (Formals (let_ids bs) None) (recsets bs' tss ++ b')))
  (* L1 *)
  | OValues1 e e' : opt e e' -> opt (EValues [e]) e'
  | OValues es es' : opts es es' -> opt (EValues es) (EMvValues es')
  | OCwv p p' c c' : literal c <> None -> opt p p' -> opt c c' -> opt (ECwv p c) (EMvCall (EApp p' []) c')
  | OMvVals es es' c c' : literal c <> None -> opts es es' -> opt c c' -> opt (EMvCall (EMvValues es) c) (EApp c' es')
  | OMvOne e e' c c' : literal c <> None -> single e = true -> opt e e' -> opt c c' -> opt (EMvCall e c) (EApp c' [e'])
  | OMvLet e e' xs b b' :
      Forall okid xs -> opt e e' -> opts b b' ->
      opt (EMvCall e (ELam (Formals xs None) b)) (EMvLet e' (Formals xs None) (begin1 b'))
  (* L2 *)
  | OApp0 b b' : opts b b' -> opt (EApp (ELam (Formals [] None) b) []) (begin1 b')
  | OApp1 xs b b' a a' :
      Forall okid xs -> opts b b' -> opt a a' ->
      opt (EApp (ELam (Formals xs None) b) [a]) (EMvLet a' (Formals xs None) (begin1 b'))
  | OAppN xs b b' es es' :
      vals = true -> Forall okid xs -> opts b b' -> opts es es' ->
      opt (EApp (ELam (Formals xs None) b) es) (EMvLet (EApp (EVar values_id) es') (Formals xs None) (begin1 b'))
  with opts : list expr -> list expr -> Prop :=
  | OsNil : opts [] []
  | OsCons e e' es es' : opt e e' -> opts es es' -> opts (e :: es) (e' :: es')
  with optcs : list clause -> list clause -> Prop :=
  | OcNil : optcs [] []
  | OcCons fm b b' cs cs' : Forall okid (fm_ids fm) -> opts b b' -> optcs cs cs' -> optcs ((fm, b) :: cs) ((fm, b') :: cs')
  with optbs : list (list ident * expr) -> list (list ident * expr) -> Prop :=
  | ObNil : optbs [] []
  | ObCons xs e e' bs bs' : opt e e' -> optbs bs bs' -> optbs ((xs, e) :: bs) ((xs, e') :: bs').

  (** ** Related stores *)
  Record inj : Type := Inj { hp : renaming; cl : renaming; pv : nat -> option val }.
  Record le (i j : inj) : Prop := Le {
    le_hp : extends (hp i) (hp j);
    le_cl : extends (cl i) (cl j);
    le_pv : forall l v, pv i l = Some v -> pv j l = Some v }.

  Definition cvrel (i : inj) (v v' : val) : Prop := (v = VUnbound /\ v' = VUnbound) \/ vrel unb (hp i) v v'.

  (** Variables that are not among the new ones have corresponding cells. *)
  Definition erel (i : inj) (r r' : lenv) : Prop :=
    (forall x, ~ resv x -> orel (fun l l' => cl i l = Some l') (lookup_env x r) (lookup_env x r')) /\
    (vals = true -> lookup_env values_id r' = None).

  Inductive prel (i : inj) : sproc -> sproc -> Prop :=
  | PrClo cls cls' r r' : optcs cls cls' -> erel i r r' -> prel i (PClo cls r) (PClo cls' r')
  | PrSys p : (forall cls r, p <> PClo cls r) -> prel i p p.

  Record srel (i : inj) (s s' : store) : Prop := Srel {
    sr_heap : hrel unb (hp i) (heap_of s) (heap_of s');
    sr_hinj : injective (hp i);
    sr_base : forall l, l < base -> hp i l = Some l;
    sr_cells : forall l l', cl i l = Some l' ->
      exists v v', nth_error (cells_of s) l = Some v /\ nth_error (cells_of s') l' = Some v' /\ cvrel i v v';
    sr_cinj : injective (cl i);
    sr_priv : forall l v, pv i l = Some v -> nth_error (cells_of s') l = Some v /\ forall k, cl i k <> Some l;
    sr_glob : forall x, orel (vrel unb (hp i)) (glob_ref x (glob_of s)) (glob_ref x (glob_of s'));
    sr_procs : forall l l', hp i l = Some l' -> orel (prel i) (proc_ref l (procs_of s)) (proc_ref l' (procs_of s'));
    sr_below : forall l p, proc_ref l (procs_of s) = Some p -> l < List.length (heap_of s);
    sr_below' : forall l p, proc_ref l (procs_of s') = Some p -> l < List.length (heap_of s');
    sr_values : vals = true ->
      exists l, glob_ref values_id (glob_of s') = Some (VPtr l) /\ proc_ref l (procs_of s') = Some PValues }.

  Lemma le_refl i : le i i.
  Proof. constructor; auto using extends_refl. Qed.
  Lemma le_trans i j k : le i j -> le j k -> le i k.
  Proof. intros [A B C] [D E F]. constructor; eauto using extends_trans. Qed.
  Hint Resolve le_refl le_trans : core.

  Lemma cvrel_mono i j v v' : le i j -> cvrel i v v' -> cvrel j v v'.
  Proof. intros L [A|A]; [left; auto|right]. eapply vrel_mono; [apply L|auto]. Qed.
  Lemma erel_mono i j r r' : le i j -> erel i r r' -> erel j r r'.
  Proof.
    intros L [A B]. split; auto. intros x N. specialize (A x N). destruct (lookup_env x r), (lookup_env x r'); simpl in *; auto.
    apply L. auto.
  Qed.
  Lemma prel_mono i j p p' : le i j -> prel i p p' -> prel j p p'.
  Proof. intros L [cls cls' r r' A B|q A]; constructor; eauto using erel_mono. Qed.
  Lemma vrel_le i j v v' : le i j -> vrel unb (hp i) v v' -> vrel unb (hp j) v v'.
  Proof. intros L. apply vrel_mono. apply L. Qed.
  Lemma vsrel_le i j v v' : le i j -> vsrel unb (hp i) v v' -> vsrel unb (hp j) v v'.
  Proof. intros L. apply vsrel_mono. apply L. Qed.

  Lemma hp_lt i s s' l l' : srel i s s' -> hp i l = Some l' -> l < List.length (heap_of s) /\ l' < List.length (heap_of s').
  Proof.
    intros R E. destruct (sr_heap _ _ _ R _ _ E) as [c [c' [A [B _]]]].
    split; apply nth_error_Some; congruence.
  Qed.
  Lemma cl_lt i s s' l l' : srel i s s' -> cl i l = Some l' -> l < List.length (cells_of s) /\ l' < List.length (cells_of s').
  Proof.
    intros R E. destruct (sr_cells _ _ _ R _ _ E) as [c [c' [A [B _]]]].
    split; apply nth_error_Some; congruence.
  Qed.
  Lemma pv_lt i s s' l v : srel i s s' -> pv i l = Some v -> l < List.length (cells_of s').
  Proof. intros R E. destruct (sr_priv _ _ _ R _ _ E) as [A _]. apply nth_error_Some. congruence. Qed.

  Lemma nth_snoc_lt {A} (l : list A) k n : n < List.length l -> nth_error (l ++ k) n = nth_error l n.
  Proof. intros. apply nth_error_app1. auto. Qed.

  (** *** New procedures *)
  Lemma new_src i s s' p v s1 : srel i s s' -> new_proc p s = (v, s1) -> srel i s1 s'.
  Proof.
    intros R E. injection E as <- <-. constructor; simpl; try apply R.
    - intros l l' H. destruct (hp_lt _ _ _ _ _ R H) as [A _]. rewrite nth_snoc_lt; auto. apply R; auto.
    - intros l l' H. destruct (hp_lt _ _ _ _ _ R H) as [A _]. destruct (Nat.eqb_spec (List.length (heap_of s)) l); [lia|]. apply R; auto.
    - intros l q. rewrite app_length. simpl. destruct (Nat.eqb_spec (List.length (heap_of s)) l); [lia|].
      intros H. apply (sr_below _ _ _ R) in H. lia.
  Qed.
  Lemma new_tgt i s s' p v s1 : srel i s s' -> new_proc p s' = (v, s1) -> srel i s s1.
  Proof.
    intros R E. injection E as <- <-. constructor; simpl; try apply R.
    - intros l l' H. destruct (hp_lt _ _ _ _ _ R H) as [_ A]. rewrite (nth_snoc_lt (heap_of s')); auto. apply R; auto.
    - intros l l' H. destruct (hp_lt _ _ _ _ _ R H) as [_ A]. destruct (Nat.eqb_spec (List.length (heap_of s')) l'); [lia|]. apply R; auto.
    - intros l q. rewrite app_length. simpl. destruct (Nat.eqb_spec (List.length (heap_of s')) l); [lia|].
      intros H. apply (sr_below' _ _ _ R) in H. lia.
    - intros V. destruct (sr_values _ _ _ R V) as [l [A B]]. exists l. split; auto.
      destruct (Nat.eqb_spec (List.length (heap_of s')) l); auto. apply (sr_below' _ _ _ R) in B. lia.
  Qed.
  Lemma new_both i s s' p p' v v' s1 s1' :
    srel i s s' -> prel i p p' -> new_proc p s = (v, s1) -> new_proc p' s' = (v', s1') ->
    exists j, le i j /\ srel j s1 s1' /\ vrel unb (hp j) v v'.
  Proof.
    intros R P E E'. injection E as <- <-. injection E' as <- <-.
    set (n := List.length (heap_of s)). set (n' := List.length (heap_of s')).
    set (j := Inj (fun l => if l =? n then Some n' else hp i l) (cl i) (pv i)).
    assert (L : le i j).
    { constructor; simpl; auto using extends_refl. intros l l' H. destruct (Nat.eqb_spec l n); auto.
      destruct (hp_lt _ _ _ _ _ R H). subst n. lia. }
    exists j. split; auto. split.
    - constructor; simpl; try apply R.
      + intros l l' H. destruct (Nat.eqb_spec l n) as [->|N].
        * injection H as <-. exists (COther 0), (COther 0). rewrite !nth_error_app2 by (subst n n'; lia). subst n n'. rewrite !Nat.sub_diag. simpl. auto.
        * destruct (hp_lt _ _ _ _ _ R H) as [A B]. rewrite !nth_snoc_lt by auto.
          destruct (sr_heap _ _ _ R _ _ H) as [c [c' [X [Y Z]]]]. exists c, c'. split; auto. split; auto.
          eapply crel_mono; [apply L|auto].
      + intros l1 l2 l'. destruct (Nat.eqb_spec l1 n) as [->|N1], (Nat.eqb_spec l2 n) as [->|N2]; intros H1 H2; auto.
        * injection H1 as <-. destruct (hp_lt _ _ _ _ _ R H2). subst n'. lia.
        * injection H2 as <-. destruct (hp_lt _ _ _ _ _ R H1). subst n'. lia.
        * eapply (sr_hinj _ _ _ R); eauto.
      + intros l H. assert (Q := sr_base _ _ _ R l H). destruct (Nat.eqb_spec l n); auto. destruct (hp_lt _ _ _ _ _ R Q). subst n. lia.
      + intros l l' H. destruct (sr_cells _ _ _ R _ _ H) as [w [w' [A [B C]]]]. exists w, w'. eauto using cvrel_mono.
      + intros x. assert (Q := sr_glob _ _ _ R x). destruct (glob_ref x (glob_of s)), (glob_ref x (glob_of s')); simpl in *; auto.
        apply (vrel_le i j); auto.
      + fold n n'. intros l l' H. destruct (Nat.eqb_spec l n) as [->|N].
        * injection H as <-. rewrite !Nat.eqb_refl. simpl. eauto using prel_mono.
        * destruct (hp_lt _ _ _ _ _ R H) as [A B]. destruct (Nat.eqb_spec n l); [congruence|]. destruct (Nat.eqb_spec n' l'); [subst n'; lia|].
          assert (Q := sr_procs _ _ _ R _ _ H). destruct (proc_ref l (procs_of s)), (proc_ref l' (procs_of s')); simpl in *; auto.
          eauto using prel_mono.
      + fold n. intros l q. rewrite app_length. fold n. simpl. destruct (Nat.eqb_spec n l); [lia|]. intros H. apply (sr_below _ _ _ R) in H. fold n in H. lia.
      + fold n'. intros l q. rewrite app_length. fold n'. simpl. destruct (Nat.eqb_spec n' l); [lia|]. intros H. apply (sr_below' _ _ _ R) in H. fold n' in H. lia.
      + intros V. destruct (sr_values _ _ _ R V) as [l [A B]]. exists l. split; auto.
        fold n'. destruct (Nat.eqb_spec n' l); auto. apply (sr_below' _ _ _ R) in B. subst n'. lia.
    - simpl. rewrite Nat.eqb_refl. auto.
  Qed.

  (** *** New cells *)
  Definition link (i : inj) (n n' : nat) (sg : list nat) : inj :=
    Inj (hp i) (fun l => if l <? n then cl i l else match nth_error sg (l - n) with Some b => Some (n' + b) | None => None end) (pv i).
  Lemma link_le i s s' sg : srel i s s' -> le i (link i (List.length (cells_of s)) (List.length (cells_of s')) sg).
  Proof.
    intros R. constructor; simpl; auto using extends_refl. intros l l' H. destruct (cl_lt _ _ _ _ _ R H) as [A _].
    destruct (Nat.ltb_spec l (List.length (cells_of s))); auto. lia.
  Qed.
  Lemma add_linked i s s' vs vs' sg :
    srel i s s' -> NoDup sg ->
    (forall a b, nth_error sg a = Some b -> exists v v', nth_error vs a = Some v /\ nth_error vs' b = Some v' /\ cvrel i v v') ->
    srel (link i (List.length (cells_of s)) (List.length (cells_of s')) sg) (add_cells vs s) (add_cells vs' s').
  Proof.
    intros R ND C. assert (L := link_le i s s' sg R).
    set (n := List.length (cells_of s)) in *. set (n' := List.length (cells_of s')) in *.
    constructor; simpl; try apply R.
    - intros l l' H. destruct (Nat.ltb_spec l n) as [A|A].
      + destruct (cl_lt _ _ _ _ _ R H). rewrite !nth_snoc_lt by auto.
        destruct (sr_cells _ _ _ R _ _ H) as [w [w' [X [Y Z]]]]. exists w, w'. eauto using cvrel_mono.
      + destruct (nth_error sg (l - n)) as [b|] eqn:Q; [|discriminate]. injection H as <-.
        destruct (C _ _ Q) as [v [v' [X [Y Z]]]]. exists v, v'. rewrite !nth_error_app2 by (fold n; fold n'; lia). fold n n'.
        replace (n' + b - n') with b by lia. split; auto.
    - intros l1 l2 l'. destruct (Nat.ltb_spec l1 n) as [A1|A1], (Nat.ltb_spec l2 n) as [A2|A2]; intros H1 H2.
      + eapply (sr_cinj _ _ _ R); eauto.
      + destruct (nth_error sg (l2 - n)) as [b|] eqn:Q; [|discriminate]. injection H2 as <-. destruct (cl_lt _ _ _ _ _ R H1). fold n' in H0. lia.
      + destruct (nth_error sg (l1 - n)) as [b|] eqn:Q; [|discriminate]. injection H1 as <-. destruct (cl_lt _ _ _ _ _ R H2). fold n' in H0. lia.
      + destruct (nth_error sg (l1 - n)) as [b1|] eqn:Q1; [|discriminate]. destruct (nth_error sg (l2 - n)) as [b2|] eqn:Q2; [|discriminate].
        injection H1 as <-. injection H2 as H2. assert (b2 = b1) by lia. subst b2.
        assert (l1 - n = l2 - n); [|lia]. eapply (proj1 (NoDup_nth_error sg)); eauto.
        * apply nth_error_Some. congruence.
        * congruence.
    - intros l v H. destruct (sr_priv _ _ _ R _ _ H) as [A B]. assert (P := pv_lt _ _ _ _ _ R H). rewrite nth_snoc_lt by auto. split; auto.
      intros k. destruct (Nat.ltb_spec k n); auto. destruct (nth_error sg (k - n)); [|discriminate]. intros E. injection E as E. fold n' in P. lia.
    - intros l l' H. assert (Q := sr_procs _ _ _ R _ _ H). destruct (proc_ref l (procs_of s)), (proc_ref l' (procs_of s')); simpl in *; auto.
      eauto using prel_mono.
  Qed.
  Lemma add_src_cells i s s' vs : srel i s s' -> srel i (add_cells vs s) s'.
  Proof.
    intros R. constructor; simpl; try apply R. intros l l' H. destruct (cl_lt _ _ _ _ _ R H). rewrite (nth_snoc_lt (cells_of s)) by auto. apply R; auto.
  Qed.
  Lemma add_tgt_cells i s s' vs : srel i s s' -> srel i s (add_cells vs s').
  Proof.
    intros R. constructor; simpl; try apply R.
    - intros l l' H. destruct (cl_lt _ _ _ _ _ R H). rewrite (nth_snoc_lt (cells_of s')) by auto. apply R; auto.
    - intros l v H. assert (P := pv_lt _ _ _ _ _ R H). rewrite nth_snoc_lt by auto. apply R; auto.
  Qed.
  (** Private cells of the optimised program. *)
  Lemma add_private i s s' vs : srel i s s' ->
    let n := List.length (cells_of s') in
    exists j, le i j /\ hp j = hp i /\ srel j s (add_cells vs s') /\
      forall k v, nth_error vs k = Some v -> pv j (n + k) = Some v.
  Proof.
    intros R n.
    set (j := Inj (hp i) (cl i) (fun l => if l <? n then pv i l else nth_error vs (l - n))).
    assert (L : le i j).
    { constructor; simpl; auto using extends_refl. intros l v H. assert (P := pv_lt _ _ _ _ _ R H). destruct (Nat.ltb_spec l n); auto. subst n. lia. }
    exists j. split; auto. split; auto. split.
    - constructor; simpl; try apply R.
      + intros l l' H. destruct (cl_lt _ _ _ _ _ R H). rewrite (nth_snoc_lt (cells_of s')) by auto.
        destruct (sr_cells _ _ _ R _ _ H) as [w [w' [X [Y Z]]]]. exists w, w'. eauto using cvrel_mono.
      + intros l v. destruct (Nat.ltb_spec l n) as [A|A]; intros H.
        * rewrite nth_snoc_lt by auto. apply R; auto.
        * rewrite nth_error_app2 by auto. split; auto. intros k E. destruct (cl_lt _ _ _ _ _ R E). fold n in H1. lia.
      + intros l l' H. assert (Q := sr_procs _ _ _ R _ _ H). destruct (proc_ref l (procs_of s)), (proc_ref l' (procs_of s')); simpl in *; auto.
        eauto using prel_mono.
    - intros k v H. simpl. destruct (Nat.ltb_spec (n + k) n); [lia|]. replace (n + k - n) with k by lia. auto.
  Qed.

  (** *** Assignment *)
  Lemma nth_set_eq {A} (l : list A) n a : n < List.length l -> nth_error (set_nth n a l) n = Some a.
  Proof. revert n. induction l as [|x r IH]; intros [|n] H; simpl in *; try lia; auto. apply IH. lia. Qed.
  Lemma nth_set_ne {A} (l : list A) n m a : n <> m -> nth_error (set_nth n a l) m = nth_error l m.
  Proof. revert n m. induction l as [|x r IH]; intros [|n] [|m] H; simpl in *; auto; try lia. Qed.

  Lemma set_cell_both i s s' l l' v v' :
    srel i s s' -> cl i l = Some l' -> cvrel i v v' -> srel i (set_cell l v s) (set_cell l' v' s').
  Proof.
    intros R E V. destruct (cl_lt _ _ _ _ _ R E) as [B B']. constructor; simpl; try apply R.
    - intros k k' H. destruct (Nat.eq_dec l k) as [<-|N].
      + rewrite E in H. injection H as <-. exists v, v'. rewrite !nth_set_eq by auto. auto.
      + destruct (Nat.eq_dec l' k') as [<-|N']; [destruct N; eapply (sr_cinj _ _ _ R); eauto|].
        rewrite !nth_set_ne by auto. apply R; auto.
    - intros k w H. destruct (sr_priv _ _ _ R _ _ H) as [P Q]. split; auto.
      destruct (Nat.eq_dec l' k) as [<-|N]; [destruct (Q l); auto|]. rewrite nth_set_ne; auto.
  Qed.
  Lemma glob_ref_set x y v g : glob_ref y (glob_set x v g) = if ident_eqb x y then Some v else glob_ref y g.
  Proof.
    induction g as [|[z w] r IH]; simpl; auto.
    destruct (ident_eqb_spec z x) as [->|N]; simpl.
    - destruct (ident_eqb_spec x y); auto.
    - destruct (ident_eqb_spec z y) as [->|M]; auto. destruct (ident_eqb_spec x y); [congruence|auto].
  Qed.
  Lemma set_glob_both i s s' x v v' :
    srel i s s' -> okid x -> vrel unb (hp i) v v' -> srel i (set_glob x v s) (set_glob x v' s').
  Proof.
    intros R O V. constructor; simpl; try apply R.
    - intros y. rewrite !glob_ref_set. destruct (ident_eqb_spec x y); [simpl; auto|]. apply R.
    - intros W. rewrite glob_ref_set. destruct (ident_eqb_spec x values_id) as [E|N]; [destruct O as [_ O]; destruct (O W E)|]. apply R; auto.
  Qed.
  Lemma set_globs_both i xs vs vs' s s' :
    srel i s s' -> Forall okid xs -> vsrel unb (hp i) vs vs' -> srel i (set_globs xs vs s) (set_globs xs vs' s').
  Proof.
    intros R O V. revert xs O s s' R. induction V as [|v v' vs vs' A V IH]; intros [|x xs] O s s' R; simpl; auto.
    inversion O; subst. apply IH; auto. apply set_glob_both; auto.
  Qed.

  (** *** Objects allocated by primitives and for rest parameters *)
  Lemma heap_both i s s' h h' g :
    srel i s s' -> hrel unb g h h' -> injective g -> extends (hp i) g ->
    (forall l l', g l = Some l' -> hp i l = Some l' \/ (List.length (heap_of s) <= l /\ List.length (heap_of s') <= l')) ->
    List.length (heap_of s) <= List.length h -> List.length (heap_of s') <= List.length h' ->
    let j := Inj g (cl i) (pv i) in le i j /\ srel j (set_heap h s) (set_heap h' s').
  Proof.
    intros R H I E F G G' j.
    assert (L : le i j) by (constructor; simpl; auto using extends_refl).
    split; auto. constructor; simpl; auto; try apply R.
    - intros l B. apply E. apply R; auto.
    - intros l l' Q. destruct (sr_cells _ _ _ R _ _ Q) as [w [w' [X [Y Z]]]]. exists w, w'. eauto using cvrel_mono.
    - intros x. assert (Q := sr_glob _ _ _ R x). destruct (glob_ref x (glob_of s)), (glob_ref x (glob_of s')); simpl in *; auto.
      eapply vrel_mono; eauto.
    - intros l l' Q. destruct (F _ _ Q) as [K|[K K']].
      + assert (P := sr_procs _ _ _ R _ _ K). destruct (proc_ref l (procs_of s)), (proc_ref l' (procs_of s')); simpl in *; auto. eauto using prel_mono.
      + destruct (proc_ref l (procs_of s)) eqn:P; [apply (sr_below _ _ _ R) in P; lia|].
        destruct (proc_ref l' (procs_of s')) eqn:P'; [apply (sr_below' _ _ _ R) in P'; lia|]. simpl. auto.
    - intros l p Q. apply (sr_below _ _ _ R) in Q. lia.
    - intros l p Q. apply (sr_below' _ _ _ R) in Q. lia.
  Qed.

  Lemma list_cells_length b vs : List.length (list_cells b vs) = List.length vs.
  Proof. revert b. induction vs; intros b; simpl; auto. Qed.
  Lemma list_cells_nth vs b k v :
    nth_error vs k = Some v ->
    nth_error (list_cells b vs) k = Some (CPair v (if S k =? List.length vs then VNull else VPtr (S (b + k)))).
  Proof.
    revert b k. induction vs as [|w r IH]; intros b [|k] H; try discriminate.
    - simpl. injection H as ->. destruct r; simpl; [auto|]. rewrite Nat.add_0_r. auto.
    - simpl in H. simpl list_cells. simpl nth_error. rewrite (IH (S b) k H). simpl. rewrite <- plus_n_Sm.
      destruct (List.length r) eqn:Q; [destruct r; [destruct k; discriminate|discriminate]|]. auto.
  Qed.
  Lemma vsrel_nth u h vs vs' k v : vsrel u h vs vs' -> nth_error vs k = Some v -> exists v', nth_error vs' k = Some v' /\ vrel u h v v'.
  Proof. intros F. revert k. induction F as [|x y xs ys A F IH]; intros [|k] H; try discriminate; simpl in *; eauto. injection H as ->. eauto. Qed.

  Lemma new_list_both i s s' vs vs' :
    srel i s s' -> vsrel unb (hp i) vs vs' ->
    exists j, le i j /\ cl j = cl i /\
      srel j (set_heap (snd (new_list vs (heap_of s))) s) (set_heap (snd (new_list vs' (heap_of s'))) s') /\
      vrel unb (hp j) (fst (new_list vs (heap_of s))) (fst (new_list vs' (heap_of s'))).
  Proof.
    intros R V. assert (LV := vsrel_length _ _ _ _ V).
    set (n := List.length (heap_of s)). set (n' := List.length (heap_of s')).
    set (g := fun l => if l <? n then hp i l else if l <? n + List.length vs then Some (n' + (l - n)) else None).
    assert (X : extends (hp i) g).
    { intros l l' H. unfold g. destruct (hp_lt _ _ _ _ _ R H) as [A _]. destruct (Nat.ltb_spec l n); auto. subst n. lia. }
    destruct (heap_both i s s' (snd (new_list vs (heap_of s))) (snd (new_list vs' (heap_of s'))) g) as [L S1]; auto.
    - simpl. intros l l' H. unfold g in H. destruct (Nat.ltb_spec l n) as [A|A].
      + destruct (hp_lt _ _ _ _ _ R H). rewrite !nth_snoc_lt by auto. destruct (sr_heap _ _ _ R _ _ H) as [c [c' [P [Q C]]]]. exists c, c'.
        split; auto. split; auto. eapply crel_mono; eauto.
      + destruct (Nat.ltb_spec l (n + List.length vs)) as [B|B]; [|discriminate]. injection H as <-.
        rewrite !nth_error_app2 by (fold n; fold n'; lia). fold n n'. replace (n' + (l - n) - n') with (l - n) by lia.
        destruct (nth_error vs (l - n)) as [v|] eqn:Q; [|apply nth_error_None in Q; lia].
        destruct (vsrel_nth _ _ _ _ _ _ V Q) as [v' [Q' C]].
        rewrite (list_cells_nth _ n _ _ Q), (list_cells_nth _ n' _ _ Q'). eexists _, _. split; eauto. split; eauto.
        cbn [crel]. split; [eapply vrel_mono; eauto|]. rewrite LV. destruct (Nat.eqb_spec (S (l - n)) (List.length vs)); cbn [vrel]; auto.
        unfold g. destruct (Nat.ltb_spec (S (n + (l - n))) n); [lia|]. destruct (Nat.ltb_spec (S (n + (l - n))) (n + List.length vs)); [|lia].
        f_equal. lia.
    - intros l1 l2 l'. unfold g. destruct (Nat.ltb_spec l1 n) as [A1|A1], (Nat.ltb_spec l2 n) as [A2|A2]; intros H1 H2.
      + eapply (sr_hinj _ _ _ R); eauto.
      + destruct (Nat.ltb_spec l2 (n + List.length vs)); [|discriminate]. injection H2 as <-. destruct (hp_lt _ _ _ _ _ R H1) as [U W]. fold n' in W. lia.
      + destruct (Nat.ltb_spec l1 (n + List.length vs)); [|discriminate]. injection H1 as <-. destruct (hp_lt _ _ _ _ _ R H2) as [U W]. fold n' in W. lia.
      + destruct (Nat.ltb_spec l1 (n + List.length vs)); [|discriminate]. destruct (Nat.ltb_spec l2 (n + List.length vs)); [|discriminate].
        injection H1 as <-. injection H2 as H2. lia.
    - intros l l'. unfold g. destruct (Nat.ltb_spec l n); auto. destruct (Nat.ltb_spec l (n + List.length vs)); [|discriminate].
      intros Q. injection Q as <-. right. subst n n'. lia.
    - simpl. rewrite app_length. lia.
    - simpl. rewrite app_length. lia.
    - exists (Inj g (cl i) (pv i)). split; auto. split; auto. split; auto.
      destruct V as [|v v' vs vs' A V]; simpl; auto. unfold g. fold n. destruct (Nat.ltb_spec n n); [lia|].
      simpl. destruct (Nat.ltb_spec n (n + S (List.length vs))); [|lia]. fold n'. f_equal. lia.
  Qed.

  (** *** Environments *)
  Lemma erel_bind i n n' sg xs r r' :
    erel i r r' -> Forall okid xs -> (forall l, cl i l <> None -> l < n) ->
    sg = seq 0 (List.length xs) ->
    erel (link i n n' sg) (bind_env xs n r) (bind_env xs n' r').
  Proof.
    intros [E V] O C ->. rewrite Forall_forall in O. split.
    - intros x N. destruct (in_dec ident_dec x xs) as [I|I].
      + destruct (lookup_bind_env_in x xs n r I) as [k [A B]]. rewrite A, (lookup_bind_env_shift _ _ _ _ n' r' _ I A). simpl.
        destruct (Nat.ltb_spec (n + k) n); [lia|]. replace (n + k - n) with k by lia.
        assert (k < List.length xs) by (apply nth_error_Some; congruence).
        rewrite (nth_error_nth' _ 0) by (rewrite seq_length; auto). rewrite seq_nth; auto.
      + rewrite !lookup_bind_env_not by auto. specialize (E x N). destruct (lookup_env x r) as [l|], (lookup_env x r'); simpl in *; auto.
        destruct (Nat.ltb_spec l n); auto. assert (l < n) by (apply C; congruence). lia.
    - intros W. rewrite lookup_bind_env_not; auto. intros I. destruct (O _ I) as [_ K]. apply K; auto.
  Qed.
  Lemma erel_tmps i xs n r r' : erel i r r' -> Forall tmpid xs -> erel i r (bind_env xs n r').
  Proof.
    intros [E V] T. rewrite Forall_forall in T. split.
    - intros x N. rewrite lookup_bind_env_not; auto. intros I. apply N. apply T. auto.
    - intros W. rewrite lookup_bind_env_not; auto. intros I. destruct (T _ I) as [_ K]. apply K; auto.
  Qed.

  (** Binding the parameters of a clause. *)
  Lemma bind_list_both i s s' xs vs vs' r r' :
    srel i s s' -> erel i r r' -> Forall okid xs -> vsrel unb (hp i) vs vs' -> List.length vs = List.length xs ->
    exists j, le i j /\ hp j = hp i /\ erel j (bind_env xs (List.length (cells_of s)) r) (bind_env xs (List.length (cells_of s')) r') /\
              srel j (add_cells vs s) (add_cells vs' s').
  Proof.
    intros R E O V L. exists (link i (List.length (cells_of s)) (List.length (cells_of s')) (seq 0 (List.length xs))).
    split; [eapply link_le; eauto|]. split; auto. split.
    - apply erel_bind; auto. intros l H. destruct (cl i l) eqn:Q; [|congruence]. apply (cl_lt _ _ _ _ _ R Q).
    - apply add_linked; auto using seq_NoDup. intros a b H.
      assert (a < List.length xs) by (rewrite <- (seq_length (List.length xs) 0); apply nth_error_Some; congruence).
      rewrite (nth_error_nth' _ 0) in H by (rewrite seq_length; auto). rewrite seq_nth in H by auto. injection H as <-.
      destruct (nth_error vs a) as [v|] eqn:Q; [|apply nth_error_None in Q; lia].
      destruct (vsrel_nth _ _ _ _ _ _ V Q) as [v' [Q' C]]. exists v, v'. split; auto. split; auto. right. auto.
  Qed.
  Lemma vsrel_firstn u h k vs vs' : vsrel u h vs vs' -> vsrel u h (firstn k vs) (firstn k vs').
  Proof. intros F. revert k. induction F; intros [|k]; simpl; constructor; auto. apply IHF. Qed.
  Lemma vsrel_skipn u h k vs vs' : vsrel u h vs vs' -> vsrel u h (skipn k vs) (skipn k vs').
  Proof. intros F. revert k. induction F; intros [|k]; simpl; try constructor; auto. Qed.

  Lemma bind_env_snoc xs x n r : bind_env (xs ++ [x]) n r = (x, n + List.length xs) :: bind_env xs n r.
  Proof. revert n r. induction xs as [|y ys IH]; intros n r; simpl; [rewrite Nat.add_0_r; auto|]. rewrite IH. f_equal. f_equal. lia. Qed.

  Lemma bind_clause_both i s s' fm vs vs' r r' r1 s1 :
    srel i s s' -> erel i r r' -> Forall okid (fm_ids fm) -> vsrel unb (hp i) vs vs' -> accepts fm (List.length vs) = true ->
    bind_clause fm vs r s = (r1, s1) ->
    exists j r1' s1', bind_clause fm vs' r' s' = (r1', s1') /\ le i j /\ erel j r1 r1' /\ srel j s1 s1'.
  Proof.
    intros R E O V A B. unfold bind_clause, accepts, fm_ids in *. destruct fm as [xs [x|]]; simpl in *.
    - apply Nat.leb_le in A.
      destruct (new_list_both i s s' (skipn (List.length xs) vs) (skipn (List.length xs) vs')) as [j [L [CL [S1 N]]]]; auto using vsrel_skipn.
      simpl in S1, N. injection B as <- <-.
      destruct (bind_list_both j _ _ (xs ++ [x]) (firstn (List.length xs) vs ++ [match skipn (List.length xs) vs with [] => VNull | _ :: _ => VPtr (List.length (heap_of s)) end])
        (firstn (List.length xs) vs' ++ [match skipn (List.length xs) vs' with [] => VNull | _ :: _ => VPtr (List.length (heap_of s')) end]) r r' S1) as [j2 [L2 [_ [E2 S2]]]]; eauto using erel_mono.
      + apply vsrel_app; [apply vsrel_firstn; eauto using vsrel_le|]. constructor; auto.
      + rewrite !app_length, firstn_length. simpl. lia.
      + simpl in E2. rewrite !bind_env_snoc in E2. exists j2. eexists _, _. split; [reflexivity|]. split; [eapply le_trans; eauto|]. split; auto.
    - apply Nat.eqb_eq in A. rewrite app_nil_r in O. injection B as <- <-.
      destruct (bind_list_both i s s' xs vs vs' r r') as [j [L [_ [E2 S2]]]]; auto. exists j. eexists _, _. split; [reflexivity|]. auto.
  Qed.

  Lemma select_both cls cls' n fm b :
    optcs cls cls' -> select cls n = Some (fm, b) ->
    exists b', select cls' n = Some (fm, b') /\ opts b b' /\ Forall okid (fm_ids fm) /\ accepts fm n = true.
  Proof.
    intros C. revert cls' C. induction cls as [|[fm0 b0] r IH]; intros cls' C S; [discriminate|].
    inversion C; subst. simpl in *. destruct (accepts fm0 n) eqn:A; eauto. injection S as -> ->. eauto 6.
  Qed.
End Opt.
