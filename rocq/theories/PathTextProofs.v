(** Specification of the path procedures of PathText.v and the lemmas about running them. *)
From Coq Require Import ZArith NArith Bool Ascii String List Arith Lia.
From Verif Require Import Base Heap HeapM Ast Sem Check Lists SimLemmas Path PathThm LibText LibTextProofs LibTextRun PathText.
Import ListNotations.
Local Open Scope list_scope.

(** ** Specification *)

(** [v] is a string that holds the text [t]: no NUL in it, and as short as every string is. *)
Definition text_at (h : heap) (v : val) (t : list byte) : Prop :=
  exists l, v = VPtr l /\ nth_error h l = Some (CStr t) /\ ~ In NUL t /\ (Z.of_nat (List.length t) < 2 ^ 62)%Z.
(** [v] is a string. *)
Definition stringp (h : heap) (v : val) : bool :=
  match v with VPtr l => match nth_error h l with Some (CStr _) => true | _ => false end | _ => false end.

(** An object that is no string. *)
Definition no_string (h : heap) (v : val) : Prop :=
  match v with
  | VPtr l => exists c, nth_error h l = Some c /\ forall b, c <> CStr b
  | VUnbound => False
  | _ => True
  end.

(** A path ends in a slash. *)
Definition terminated (t : list byte) : bool := match rev t with c :: _ => Ascii.eqb c slash | [] => false end.
(** The path that joining [ps] to [t] gives: empty parts are left out, and a slash is put
    between two parts unless the first one ends in a slash. *)
Fixpoint joined (t : list byte) (ps : list (list byte)) : list byte :=
  match ps with
  | [] => t
  | [] :: r => joined t r
  | p :: r => joined (if terminated t then t ++ p else t ++ slash :: p) r
  end.

(** The global variables that the texts refer to, and those they define. *)
Definition path_base : list string :=
  ["string?"; "string-length"; "string-ref"; "substring"; "string-append"; "eq?"; "="; ">"; "+"; "-"; "void"; "raise-argument-error";
   "null?"; "pair?"; "cons"; "list"; "apply"; "car"; "cdr"; "reverse"]%string.
Definition path_defined : list string := ["is-absolute-path?"; "build-path"; "split-path"; "path->list"]%string.
Definition path_names : list string := path_base ++ path_defined.

Section Spec.
  Variable prim : N -> list val -> heap -> option presult.
  Variable complaint : val -> val -> err.
  Variable lit : obj -> val.
  Local Notation returns := (returns prim).
  Local Notation raises := (raises prim).
  (** ... a string that holds [t]. *)
  Definition returns_text (s : store) (f : val) (vs : list val) (t : list byte) : Prop :=
    exists v s', apply prim s f vs (RVals [v]) s' /\ grows s s' /\ text_at (heap_of s') v t.

  (** *** What the texts rely on *)
  Definition is_string (s : store) f := forall v, returns s f [v] (of_bool (stringp (heap_of s) v)).
  Definition is_string_length (s : store) f :=
    forall v t, text_at (heap_of s) v t -> returns s f [v] (VFix (Z.of_nat (List.length t))).
  Definition is_string_ref (s : store) f :=
    (forall v t n c, text_at (heap_of s) v t -> nth_error t n = Some c -> returns s f [v; VFix (Z.of_nat n)] (VChar c)) /\
    (forall v t z, text_at (heap_of s) v t -> (z < 0)%Z -> exists y, raises s f [v; VFix z] y).
  Definition is_substring (s : store) f :=
    forall v t i j, text_at (heap_of s) v t -> i <= j -> j <= List.length t ->
      returns_text s f [v; VFix (Z.of_nat i); VFix (Z.of_nat j)] (firstn (j - i) (skipn i t)).
  Definition is_string_append (s : store) f :=
    forall v vs t ts, text_at (heap_of s) v t -> Forall2 (text_at (heap_of s)) vs ts ->
      (Z.of_nat (List.length (List.concat (t :: ts))) < 2 ^ 62)%Z -> returns_text s f (v :: vs) (List.concat (t :: ts)).
  Definition is_same_char (s : store) f := forall a b, returns s f [VChar a; VChar b] (of_bool (Ascii.eqb a b)).
  Definition is_more (s : store) f := forall a b, returns s f [VFix a; VFix b] (of_bool (b <? a)%Z).
  Definition is_minus (s : store) f :=
    forall a b, (0 <= a < 2 ^ 62)%Z -> (0 <= b < 2 ^ 62)%Z -> returns s f [VFix a; VFix b] (VFix (a - b)).
  Definition is_list1 (s : store) f := forall v, returns_list prim s f [v] [v].
  (** apply with a procedure and a list: what the procedure returns. *)
  Definition is_apply (s : store) f :=
    forall g l vs v s', list_at (heap_of s) l vs -> apply prim s g vs (RVals [v]) s' -> apply prim s f [g; l] (RVals [v]) s'.

  (** *** What the texts are to do *)
  Definition is_is_absolute (s : store) f :=
    forall v t, text_at (heap_of s) v t -> returns s f [v] (of_bool (match t with c :: _ => Ascii.eqb c slash | [] => false end)).
  (** An element of a path: the slashes are the string in the text of path->list itself, and
      not a copy of it. *)
  Definition element (h : heap) (v : val) (x : list byte) : Prop :=
    (x = [slash] /\ v = lit (OStr [slash])) \/ (x <> [slash] /\ text_at h v x).
  (** path->list: the elements of a path (PathThm.v) in a new list. *)
  Definition is_path_list (s : store) f :=
    (forall v t xs, text_at (heap_of s) v t -> elements t xs -> text_at (heap_of s) (lit (OStr [])) [] ->
       exists w ws s', apply prim s f [v] (RVals [w]) s' /\ grows s s' /\ list_at (heap_of s') w ws /\ Forall2 (element (heap_of s')) ws xs) /\
    (forall v, no_string (heap_of s) v -> raises s f [v] (complaint (sym "path->list") v)).
  (** build-path: the parts joined; the first one must not be empty unless all others are. *)
  Definition is_build_path (s : store) f :=
    (forall v vs t ts, text_at (heap_of s) v t -> Forall2 (text_at (heap_of s)) vs ts -> (t <> [] \/ Forall (eq []) ts) ->
       text_at (heap_of s) (lit (OStr [slash])) [slash] ->
       (Z.of_nat (List.length (joined t ts)) < 2 ^ 62)%Z -> returns_text s f (v :: vs) (joined t ts)) /\
    (forall v vs ts, text_at (heap_of s) v [] -> Forall2 (text_at (heap_of s)) vs ts -> ~ Forall (eq []) ts ->
       text_at (heap_of s) (lit (OStr [slash])) [slash] -> exists y, raises s f (v :: vs) y).
  (** split-path: the pair of everything before the last element (#f if there is nothing)
      and the last element. *)
  Definition is_split_path (s : store) f :=
    (forall v t x, text_at (heap_of s) v t -> elements t [x] -> text_at (heap_of s) (lit (OStr [])) [] ->
       exists w e s', apply prim s f [v] (RVals [w]) s' /\ grows s s' /\ pair_at (heap_of s') w = Some (VFalse, e) /\ element (heap_of s') e x) /\
    (forall v t x0 xs x, text_at (heap_of s) v t -> elements t (x0 :: xs ++ [x]) ->
       text_at (heap_of s) (lit (OStr [])) [] -> text_at (heap_of s) (lit (OStr [slash])) [slash] ->
       exists w d e s', apply prim s f [v] (RVals [w]) s' /\ grows s s' /\ pair_at (heap_of s') w = Some (d, e) /\
         text_at (heap_of s') d (joined x0 xs) /\ element (heap_of s') e x) /\
    (forall v, text_at (heap_of s) v [] -> text_at (heap_of s) (lit (OStr [])) [] -> raises s f [v] (complaint (sym "cdr") VNull)) /\
    (forall v, no_string (heap_of s) v -> raises s f [v] (complaint (sym "split-path") v)).
End Spec.

(** ** Running expressions *)
Lemma grows_text s s' v t : grows s s' -> text_at (heap_of s) v t -> text_at (heap_of s') v t.
Proof. intros (E & _) (l & A & B & C). exists l. split; auto. split; auto. eapply extends_nth; eauto. Qed.
Lemma text_bound h v t : text_at h v t -> v <> VUnbound.
Proof. intros (l & -> & _). discriminate. Qed.
Lemma text_len h v t : text_at h v t -> (Z.of_nat (List.length t) < 2 ^ 62)%Z.
Proof. intros (l & _ & _ & _ & L). exact L. Qed.
Lemma text_string h v t : text_at h v t -> stringp h v = true.
Proof. intros (l & -> & E & _). cbn. now rewrite E. Qed.
Lemma grows_no_string s s' v : grows s s' -> no_string (heap_of s) v -> no_string (heap_of s') v.
Proof. intros (E & _). destruct v; auto. intros (c & H & N). exists c. split; auto. eapply extends_nth; eauto. Qed.
Lemma no_string_bound h v : no_string h v -> v <> VUnbound.
Proof. intros H ->. exact H. Qed.
Lemma no_string_is h v : no_string h v -> stringp h v = false.
Proof. destruct v; auto. intros (c & H & N). cbn. rewrite H. destruct c; auto. now destruct (N buf). Qed.
Lemma grows_texts s s' vs ts : grows s s' -> Forall2 (text_at (heap_of s)) vs ts -> Forall2 (text_at (heap_of s')) vs ts.
Proof. intros G. induction 1; constructor; auto. eapply grows_text; eauto. Qed.
Lemma grows_element lit s s' v x : grows s s' -> element lit (heap_of s) v x -> element lit (heap_of s') v x.
Proof. intros G [H|[H K]]; [left; auto|right; split; auto]. eapply grows_text; eauto. Qed.
Lemma grows_elements lit s s' vs ts : grows s s' -> Forall2 (element lit (heap_of s)) vs ts -> Forall2 (element lit (heap_of s')) vs ts.
Proof. intros G. induction 1; constructor; auto. eapply grows_element; eauto. Qed.
Lemma grows_lt s s' k : grows s s' -> k < List.length (cells_of s) -> k < List.length (cells_of s').
Proof. intros G. pose proof (grows_len _ _ G). lia. Qed.
Lemma cell_lt s i v : cell_is s i v -> i < List.length (cells_of s).
Proof. intros [H _]. apply nth_error_Some. congruence. Qed.

Lemma set_nth_app {A} (v : A) e l : forall k, List.length l <= k -> set_nth k v (l ++ e) = l ++ set_nth (k - List.length l) v e.
Proof.
  induction l as [|c l IH]; intros k L; cbn in *; [now rewrite Nat.sub_0_r|]. destruct k as [|k]; [lia|]. cbn. f_equal. apply IH. lia.
Qed.
Section Set_cell.
  Variables (a b : store) (k : nat) (v : val).
  Hypothesis E : b = set_cell k v a.
  Lemma set_same : k < List.length (cells_of a) -> v <> VUnbound -> cell_is b k v.
  Proof. intros L N. subst b. split; auto. cbn. now apply set_nth_eq. Qed.
  Lemma set_other j w : cell_is a j w -> j <> k -> cell_is b j w.
  Proof. intros [H N] D. subst b. split; auto. cbn. now rewrite set_nth_ne. Qed.
  Lemma set_heap_eq : heap_of b = heap_of a.
  Proof. now subst b. Qed.
  Lemma set_procs_eq : procs_of b = procs_of a.
  Proof. now subst b. Qed.
  Lemma set_lt j : j < List.length (cells_of a) -> j < List.length (cells_of b).
  Proof. subst b. cbn. now rewrite set_nth_length. Qed.
  Lemma set_later names z : later names z a -> later names z b.
  Proof. subst b. exact (fun H => H). Qed.
  Lemma set_good : good a -> good b.
  Proof. subst b. exact (fun H => H). Qed.
  Lemma set_grows z : grows z a -> List.length (cells_of z) <= k -> grows z b.
  Proof.
    subst b. intros (A1 & A2 & (e & A3) & A4 & A5) L. split; auto. split; auto. split; [|split; auto].
    exists (set_nth (k - List.length (cells_of z)) v e). cbn. rewrite A3. now apply set_nth_app.
  Qed.
End Set_cell.

Ltac pcarry G :=
  match type of G with
  | grows ?a ?b =>
      repeat match goal with
             | H : text_at (heap_of a) _ _ |- _ => apply (grows_text _ _ _ _ G) in H
             | H : no_string (heap_of a) _ |- _ => apply (grows_no_string _ _ _ G) in H
             | H : element _ (heap_of a) _ _ |- _ => apply (grows_element _ _ _ _ _ G) in H
             | H : Forall2 (text_at (heap_of a)) _ _ |- _ => apply (grows_texts _ _ _ _ G) in H
             | H : Forall2 (element _ (heap_of a)) _ _ |- _ => apply (grows_elements _ _ _ _ _ G) in H
             | H : _ < List.length (cells_of a) |- _ => apply (grows_lt _ _ _ G) in H
             end
  end; carry G.
(** Before a letrec: the variables that exist are older than the ones it binds. *)
Ltac older :=
  match goal with |- run _ _ _ ?s _ _ =>
    repeat match goal with
           | H : cell_is s ?j _ |- _ => lazymatch goal with K : j < List.length (cells_of s) + 0 |- _ => fail | _ =>
               let K := fresh "OLD" in assert (K : j < List.length (cells_of s) + 0) by (rewrite Nat.add_0_r; exact (cell_lt _ _ _ H)) end
           | H : grows ?z s |- _ => lazymatch goal with K : List.length (cells_of z) <= List.length (cells_of s) + 0 |- _ => fail | _ =>
               let K := fresh "OLD" in assert (K : List.length (cells_of z) <= List.length (cells_of s) + 0) by (rewrite Nat.add_0_r; exact (grows_len _ _ H)) end
           end
  end.
(** After the assignment of a variable. *)
Ltac assigned E :=
  match type of E with ?b = set_cell ?k ?v ?a =>
    let C := fresh "CV" in
    assert (C : cell_is b k v) by (eapply set_same; [exact E|first [assumption|lia]|first [discriminate|assumption|eapply text_bound; eassumption|eapply list_bound; eassumption]]);
    repeat match goal with
           | H : cell_is a ?j _ |- _ => apply (fun K => set_other _ _ _ _ E _ _ K) in H; [|lia]
           | H : grows _ a |- _ => apply (fun K => set_grows _ _ _ _ E _ K) in H; [|lia]
           | H : _ < List.length (cells_of a) |- _ => apply (set_lt _ _ _ _ E) in H
           | H : later _ _ a |- _ => apply (set_later _ _ _ _ E) in H
           | H : good a |- _ => apply (set_good _ _ _ _ E) in H
           end;
    let EH := fresh "EH" in let EP := fresh "EP" in
    assert (EH := set_heap_eq _ _ _ _ E); assert (EP := set_procs_eq _ _ _ _ E); rewrite <- ?EH, <- ?EP in *; clear EH EP E
  end.

Section Run.
  Variable names : list string.
  Local Notation later := (later names).
  Local Notation has := (has names).
  Variable prim : N -> list val -> heap -> option presult.
  Local Notation run := (run prim).
  Local Notation runseq := (runseq prim).
  Definition runrec t r s k bs (Q : option err -> store -> Prop) : Prop := exists o s', evrec prim t r s k bs o s' /\ Q o s'.
  Lemma runrec_nil t r s k (Q : option err -> store -> Prop) : Q None s -> runrec t r s k [] Q.
  Proof. intros H. exists None, s. split; auto. constructor. Qed.
  Lemma runrec_cons t r s k x e bs (Q : option err -> store -> Prop) :
    run t r s e (fun o s1 => match o with
                             | RVals [v] => forall s2, s2 = set_cell k v s1 -> runrec t r s2 (S k) bs Q
                             | RVals _ => False
                             | RErr y => Q (Some y) s1
                             end) ->
    runrec t r s k (([x], e) :: bs) Q.
  Proof.
    intros (o & s1 & A & H). destruct o as [[|v [|w vs]]|y]; try contradiction.
    - destruct (H _ eq_refl) as (o & s2 & B & HQ). exists o, s2. split; auto. eapply ErCons; [exact A|reflexivity|].
      cbn [List.length seq set_cells]. rewrite Nat.add_1_r. exact B.
    - exists (Some y), s1. split; auto. now apply ErErr.
  Qed.
  Lemma run_letrec t r s bs body (Q : res -> store -> Prop) :
    (forall s1 k, grows s s1 -> k = List.length (cells_of s) -> k + List.length (List.concat (map fst bs)) <= List.length (cells_of s1) ->
       runrec t (bind_env (List.concat (map fst bs)) k r) s1 k bs (fun o s2 => match o with
         | None => runseq t (bind_env (List.concat (map fst bs)) k r) s2 body Q
         | Some y => Q (RErr y) s2
         end)) ->
    run t r s (ELetrec bs body) Q.
  Proof.
    intros H. destruct (H (add_cells (repeat VUnbound (List.length (List.concat (map fst bs)))) s) _ (grows_add_cells _ _) eq_refl) as (o & s2 & A & B).
    { cbn. rewrite app_length, repeat_length. lia. }
    destruct o as [y|].
    - exists (RErr y), s2. split; auto. eapply EvLetrecErr; [reflexivity|reflexivity|exact A].
    - destruct B as (o & s3 & B & HQ). exists o, s3. split; auto. eapply EvLetrec; [reflexivity|reflexivity|exact A|exact B].
  Qed.
  Lemma run_let_nil t r s body (Q : res -> store -> Prop) : (forall s1, grows s s1 -> runseq t r s1 body Q) -> run t r s (ELet [] body) Q.
  Proof. intros H. apply run_let0. apply H. apply grows_add_cells. Qed.
  Lemma run_global t r s s0 x B (Q : res -> store -> Prop) :
    has s0 x B -> lookup_env (Id x) r = None -> In x names -> later s0 s ->
    (forall f, f <> VUnbound -> (forall s1, later s0 s1 -> good s1 -> B s1 f) -> Q (RVals [f]) s) -> run t r s (EVar (Id x)) Q.
  Proof.
    intros (f & G & N & HB) L I LT H. exists (RVals [f]), s. split; auto. eapply EvGlobal; eauto. rewrite (proj2 LT); auto.
  Qed.
  Lemma runap_text s f vs t (Q : res -> store -> Prop) : returns_text prim s f vs t ->
    (forall v s', grows s s' -> text_at (heap_of s') v t -> Q (RVals [v]) s') -> runap prim s f vs Q.
  Proof. intros (v & s' & A & G & T) H. exists (RVals [v]), s'. split; auto. Qed.
  Lemma runap_list s f vs xs (Q : res -> store -> Prop) : returns_list prim s f vs xs ->
    (forall v s', grows s s' -> list_at (heap_of s') v xs -> Q (RVals [v]) s') -> runap prim s f vs Q.
  Proof. intros (v & s' & A & G & T) H. exists (RVals [v]), s'. split; auto. Qed.
  Lemma runap_cons s f a d (Q : res -> store -> Prop) : is_cons prim s f ->
    (forall v s', grows s s' -> pair_at (heap_of s') v = Some (a, d) -> Q (RVals [v]) s') -> runap prim s f [a; d] Q.
  Proof. intros B H. destruct (B a d) as (v & s' & A & G & T). exists (RVals [v]), s'. split; auto. Qed.
End Run.
