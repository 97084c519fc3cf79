(** C58: the patterns of syntax-case. *)
From Coq Require Import ZArith NArith Bool Ascii String List Arith Lia.
From Verif Require Import Base Check Expand LibRead StxCase StxCaseProofs.
Import ListNotations.
Local Open Scope list_scope.

(** What the matcher returns is what the specification says, and it returns #f only
    when the pattern does not match.  Missing from the full claim: that it returns,
    see [C58_wildcard_error_refuted] and [C58_tail_literal_refuted]. *)
Theorem C58_match_partial : forall lits p, wf lits p -> exists N, forall e, flat e -> forall f, N <= f ->
  (exists bs, gmatch lits f (pobj p) e = MOk bs /\ pm p e bs) \/
  (gmatch lits f (pobj p) e = MNo /\ ~ exists bs, pm p e bs) \/
  gmatch lits f (pobj p) e = MErr.
Proof.
  intros lits p W. exists (psize p). intros e F f Hf. rewrite (gmatch_amatch lits p W f e Hf).
  destruct (amatch p e) as [bs| | |] eqn:E; auto.
  - left. exists bs. split; auto. eapply amatch_sound; eauto.
  - right; left. split; auto. intros [bs P]. destruct (amatch_complete _ _ W _ _ (or_introl F) P); congruence.
  - exfalso. rewrite <- (gmatch_amatch lits p W f e Hf) in E.
    revert E. rewrite (gmatch_amatch lits p W f e Hf). clear - W.
    (* the matcher on patterns has no fuel *)
    assert (NF : forall p e, amatch p e <> MFuel); [|intros E; exact (NF _ _ E)].
    clear. intros p. induction p using pat_ind_strong; intros e.
    + discriminate.
    + discriminate.
    + cbn. destruct e; try discriminate. destruct (atom_eqb d e1); discriminate.
    + change (aseq amatch (tail_of tl) ps e <> MFuel).
      assert (T : forall e, tail_of tl e <> MFuel) by (intros e'; destruct tl as [t|]; cbn; [auto|destruct (stx_null e'); discriminate]).
      revert e. induction H; intros e; cbn [aseq]; auto.
      destruct x; try (destruct (stx_null e); [discriminate|]); destruct (stx_pair e) as [[a d']|]; try discriminate; auto;
        try (specialize (IHForall d'); destruct (aseq amatch (tail_of tl) l d'); cbn; congruence);
        try (specialize (H a); specialize (IHForall d'); destruct (amatch _ a), (aseq amatch (tail_of tl) l d'); cbn; congruence);
        try (specialize (H a); destruct (amatch _ a); auto; congruence).
      destruct ps; specialize (H a); specialize (IHForall d');
        destruct (amatch _ a), (aseq amatch (tail_of tl) l d'); cbn; congruence.
    + assert (MM : forall l, mmap (amatch p) l <> MFuel).
      { induction l; cbn; [discriminate|]. specialize (IHp a). destruct (amatch p a), (mmap (amatch p) l); cbn; congruence. }
      assert (TR : forall l, transpose (mmap (amatch p) l) <> MFuel).
      { intros l. specialize (MM l). destruct (mmap (amatch p) l) as [[|r rs]| | |]; cbn; try congruence.
        destruct (forallb _ rs); discriminate. }
      assert (AE : forall e, aell amatch p e <> MFuel).
      { intros e'. unfold aell. destruct (stx_list e'); [|discriminate]. destruct (stx_null e'); [discriminate|].
        destruct (stx_to_list e'); [|discriminate]. auto. }
      assert (T : forall e, tail_of tl e <> MFuel) by (intros e'; destruct tl as [t|]; cbn; [auto|destruct (stx_null e'); discriminate]).
      assert (AS : forall k ps, Forall (fun p => forall e, amatch p e <> MFuel) ps -> (forall e, k e <> MFuel) -> forall e, aseq amatch k ps e <> MFuel).
      { intros k l HF HK. induction HF; intros e'; cbn [aseq]; auto.
        destruct x; try (destruct (stx_null e'); [discriminate|]); destruct (stx_pair e') as [[a d']|]; try discriminate; auto;
          try (specialize (IHHF d'); destruct (aseq amatch k l d'); cbn; congruence);
          try (specialize (H2 a); specialize (IHHF d'); destruct (amatch _ a), (aseq amatch k l d'); cbn; congruence);
          try (specialize (H2 a); destruct (amatch _ a); auto; congruence).
        destruct ps0; specialize (H2 a); specialize (IHHF d');
          destruct (amatch _ a), (aseq amatch k l d'); cbn; congruence. }
      destruct (Nat.eq_dec (length qs + tailcount tl) 0) as [Z0|NZ].
      * destruct qs; [|cbn in Z0; lia]. destruct tl; [cbn in Z0; lia|].
        change (aseq amatch (aell amatch p) ps e <> MFuel). apply AS; auto.
      * rewrite amatch_ell_S by lia. cbv zeta. destruct (split_loop _ _ e) as [[pre post] m].
        destruct (m =? _)%Z; [|discriminate].
        pose proof (AS (aell amatch p) ps H AE (of_list pre)) as A1. pose proof (AS (tail_of tl) qs H0 T post) as A2.
        destruct (aseq amatch (aell amatch p) ps (of_list pre)), (aseq amatch (tail_of tl) qs post); cbn; congruence.
    + cbn [amatch]. unfold avector. destruct e; cbn; try discriminate. destruct (vec_elems e1) as [w|]; [|discriminate].
      destruct (length w =? length ps); [|discriminate]. revert w. induction H; intros w; [destruct w; discriminate|].
      destruct w as [|y w]; [discriminate|]. cbn [avec]. specialize (H y). specialize (IHForall w).
      destruct (amatch x y), (avec amatch l w (MOk [])); cbn; congruence.
    + assert (MM : forall l, mmap (amatch p) l <> MFuel).
      { induction l; cbn; [discriminate|]. specialize (IHp a). destruct (amatch p a), (mmap (amatch p) l); cbn; congruence. }
      assert (TR : forall l, transpose (mmap (amatch p) l) <> MFuel).
      { intros l. specialize (MM l). destruct (mmap (amatch p) l) as [[|r rs]| | |]; cbn; try congruence.
        destruct (forallb _ rs); discriminate. }
      cbn [amatch]. unfold avector. destruct e; cbn; try discriminate. destruct (vec_elems e1) as [w|]; [|discriminate].
      destruct (length ps <=? length w); [|discriminate].
      match goal with |- avec amatch ps w ?k <> MFuel => assert (HK : k <> MFuel); [|revert HK; generalize k; intros kk HK] end.
      { destruct (length w - length ps =? 0); [discriminate|auto]. }
      revert w. induction H; intros w; [destruct w; auto|].
      destruct w as [|y w]; [auto|]. cbn [avec]. specialize (H y). specialize (IHForall w).
      destruct (amatch x y), (avec amatch l w kk); cbn; congruence.
Qed.

(** For the tame patterns the full claim holds. *)
Theorem C58_match : forall lits p, wf lits p -> tame p -> exists N, forall e, flat e -> forall f, N <= f ->
  (exists bs, gmatch lits f (pobj p) e = MOk bs /\ pm p e bs) \/
  (gmatch lits f (pobj p) e = MNo /\ ~ exists bs, pm p e bs).
Proof.
  intros lits p W T. exists (psize p). intros e F f Hf. rewrite (gmatch_amatch lits p W f e Hf).
  destruct (amatch_decided lits p W T e (or_introl F)) as [E|[bs E]]; rewrite E.
  - right. split; auto. intros [bs P]. destruct (amatch_complete _ _ W _ _ (or_introl F) P); congruence.
  - left. exists bs. split; auto. eapply amatch_sound; eauto.
Qed.

(** A match that is found is right whatever the value is. *)
Theorem C58_match_sound : forall lits p, wf lits p -> exists N, forall e f bs, N <= f ->
  gmatch lits f (pobj p) e = MOk bs -> pm p e bs.
Proof.
  intros lits p W. exists (psize p). intros e f bs Hf. rewrite (gmatch_amatch lits p W f e Hf). apply (amatch_sound lits); auto.
Qed.

(** A pattern matches a value in at most one way. *)
Theorem C58_unique : forall p e bs bs', pm p e bs -> pm p e bs' -> bs = bs'.
Proof. intros p e bs bs' H H'. exact (proj1 pm_unique_all p e bs H bs' H'). Qed.

(** The variables the macro binds are those of the pattern, in the order of the
    bindings, and the value of a variable is a list nested as deep as the number of
    ellipses it is under. *)
Theorem C58_variables : forall lits p, wf lits p -> exists N, forall f, N <= f ->
  gvars lits f 0 (pobj p) = Some (vars 0 p) /\
  forall e bs, gmatch lits f (pobj p) e = MOk bs -> Forall2 (fun v b => nested (snd v) b) (vars 0 p) bs.
Proof.
  intros lits p W. exists (psize p). intros f Hf. split; [apply vars_spec; auto|].
  intros e bs H. rewrite (gmatch_amatch lits p W f e Hf) in H. apply (amatch_sound lits) in H; auto.
  apply (proj1 pm_shaped) in H. exact H.
Qed.

(** datum->syntax turns every value without syntax inside into a value the theorems
    apply to. *)
Theorem C58_datum_flat : forall d, plain d = true -> flat (to_stx d).
Proof. exact to_stx_flat. Qed.

(** The clauses: the first one whose pattern matches and whose fender is true is
    selected, with the bindings of that match. *)
Definition rejects (e : obj) (c : pat * (list obj -> option bool)) : Prop :=
  forall bs, pm (fst c) e bs -> snd c bs = Some false.
Theorem C58_first_clause : forall lits cls, Forall (fun c => wf lits (fst c) /\ tame (fst c)) cls ->
  exists N, forall d, plain d = true -> forall f, N <= f ->
  let r := syntax_case lits f d (map (fun c => (pobj (fst c), snd c)) cls) in
  let e := to_stx d in
  (exists i c bs, r = MOk (i, bs) /\ nth_error cls i = Some c /\ pm (fst c) e bs /\ snd c bs = Some true /\
                  Forall (rejects e) (firstn i cls)) \/
  (r = MNo /\ Forall (rejects e) cls) \/
  (exists i c bs, r = MErr /\ nth_error cls i = Some c /\ pm (fst c) e bs /\ snd c bs = None /\
                  Forall (rejects e) (firstn i cls)).
Proof.
  intros lits cls H.
  assert (G : exists N, forall e, flat e -> forall f, N <= f -> forall k,
    (exists i c bs, select lits f e (map (fun c => (pobj (fst c), snd c)) cls) k = MOk (k + i, bs) /\ nth_error cls i = Some c /\
                    pm (fst c) e bs /\ snd c bs = Some true /\ Forall (rejects e) (firstn i cls)) \/
    (select lits f e (map (fun c => (pobj (fst c), snd c)) cls) k = MNo /\ Forall (rejects e) cls) \/
    (exists i c bs, select lits f e (map (fun c => (pobj (fst c), snd c)) cls) k = MErr /\ nth_error cls i = Some c /\
                    pm (fst c) e bs /\ snd c bs = None /\ Forall (rejects e) (firstn i cls))).
  { induction H as [|[p fd] cls [W T] HF IH].
    - exists 0. intros. right; left. cbn. split; auto.
    - destruct IH as [N1 IH]. destruct (C58_match lits p W T) as [N2 M]. exists (N1 + N2). intros e F f Hf k.
      cbn [map select fst snd].
      assert (NEXT : rejects e (p, fd) ->
        (exists i c bs, select lits f e (map (fun c => (pobj (fst c), snd c)) cls) (S k) = MOk (k + i, bs) /\ nth_error ((p, fd) :: cls) i = Some c /\
                    pm (fst c) e bs /\ snd c bs = Some true /\ Forall (rejects e) (firstn i ((p, fd) :: cls))) \/
        (select lits f e (map (fun c => (pobj (fst c), snd c)) cls) (S k) = MNo /\ Forall (rejects e) ((p, fd) :: cls)) \/
        (exists i c bs, select lits f e (map (fun c => (pobj (fst c), snd c)) cls) (S k) = MErr /\ nth_error ((p, fd) :: cls) i = Some c /\
                    pm (fst c) e bs /\ snd c bs = None /\ Forall (rejects e) (firstn i ((p, fd) :: cls)))).
      { intros R. destruct (IH e F f ltac:(lia) (S k)) as [[i [c [bs [E [A1 [A2 [A3 A4]]]]]]]|[[E A]|[i [c [bs [E [A1 [A2 [A3 A4]]]]]]]]].
        - left. exists (S i), c, bs. replace (k + S i) with (S k + i) by lia. cbn [nth_error firstn]. auto 8.
        - right; left. auto.
        - right; right. exists (S i), c, bs. cbn [nth_error firstn]. auto 8. }
      destruct (M e F f ltac:(lia)) as [[bs [E P]]|[E NP]]; rewrite E.
      + destruct (fd bs) as [[|]|] eqn:EF.
        * left. exists 0, (p, fd), bs. rewrite Nat.add_0_r. cbn. auto 8.
        * apply NEXT. intros bs' P'. cbn in *. rewrite <- (C58_unique _ _ _ _ P P'). auto.
        * right; right. exists 0, (p, fd), bs. cbn. auto 8.
      + apply NEXT. intros bs' P'. exfalso. apply NP. eauto. }
  destruct G as [N G]. exists N. intros d Pd f Hf. cbv zeta. unfold syntax_case.
  specialize (G (to_stx d) (to_stx_flat d Pd) f Hf 0). cbn [plus] in G. exact G.
Qed.

(** ** What does not hold *)

Local Ltac ipm := repeat match goal with
  | H : pm _ _ _ |- _ => inversion H; clear H; subst
  | H : pml _ _ _ |- _ => inversion H; clear H; subst
  | H : pmt _ _ _ |- _ => inversion H; clear H; subst
  | H : spine _ _ _ |- _ => inversion H; clear H; subst
  end.

(** An ellipsis at the start of a list or vector pattern, or a second one in it, is
    refused whatever the value is (in the code by a syntax error when the macro is
    expanded), and these are the only refused positions of ellipses. *)
Fixpoint elements (p : obj) : list obj :=
  match p with OPair a d => a :: elements d | OSyntax (OPair a d) _ => a :: elements d | _ => [] end.
Definition is_dots (x : obj) : Prop := exists loc, x = OSyntax (OSym (s2b "...")) loc.
Definition misplaced (xs : list obj) : Prop :=
  (exists x r, xs = x :: r /\ is_dots x) \/ exists a x b y c, xs = a ++ x :: b ++ y :: c /\ is_dots x /\ is_dots y.
Lemma stx_is_dots x : stx_is "..." x = true <-> is_dots x.
Proof.
  unfold stx_is, is_dots. split.
  - destruct x as [| | | | | | | | | | | | | | | |e loc|]; try discriminate. destruct e; try discriminate. destruct (list_eq_dec _ _ _) as [->|]; [eauto|discriminate].
  - intros [loc ->]. reflexivity.
Qed.
(** two ellipses, or one when one has been seen already *)
Definition bad_rest (be : nat) (ell : bool) (xs : list obj) : Prop :=
  if ell then exists a x c, xs = a ++ x :: c /\ is_dots x
  else (be = 0 /\ exists x r, xs = x :: r /\ is_dots x) \/ exists a x b y c, xs = a ++ x :: b ++ y :: c /\ is_dots x /\ is_dots y.
Lemma bad_rest_cons be ell x r : bad_rest be ell (x :: r) <->
  (is_dots x /\ (ell = true \/ be = 0 \/ bad_rest be true r)) \/ (~ is_dots x /\ bad_rest (if ell then be else S be) ell r).
Proof.
  assert (DD : is_dots x \/ ~ is_dots x) by (destruct (stx_is "..." x) eqn:E; [left; apply stx_is_dots; auto|right; rewrite <- stx_is_dots; congruence]).
  unfold bad_rest. destruct ell.
  - split.
    + intros [a [y [c [E D]]]]. destruct a as [|w a]; injection E as -> ->; [left; auto|]. destruct DD; [left; auto|right; split; eauto 8].
    + intros [[D _]|[_ [a [y [c [-> D]]]]]]; [exists [], x, r; auto|exists (x :: a), y, c; auto].
  - split.
    + intros [[-> [y [q [E D]]]]|[a [y [b [z [c [E [D1 D2]]]]]]]]; [injection E as <- <-; left; auto|].
      destruct a as [|w a]; injection E as -> ->; [left; split; auto; right; right; eauto 8|]. destruct DD; [left; split; auto; right; right; exists (a ++ y :: b), z, c; rewrite <- app_assoc; auto|].
      right. split; auto. right. eauto 9.
    + intros [[D [X|[->|[a [y [c [-> D2]]]]]]]|[_ [[X _]|[a [y [b [z [c [-> [D1 D2]]]]]]]]]]; try discriminate.
      * left. split; auto. eauto.
      * right. exists [], x, a, y, c. auto.
      * right. exists (x :: a), y, b, z, c. auto.
Qed.
Lemma gcount_refuses : forall n p be ae ell, length (elements p) < n -> (gcount p be ae ell = None <-> bad_rest be ell (elements p)).
Proof.
  assert (PAIR : forall (be ae : nat) (ell : bool) (a d : obj), (forall be ae ell, gcount d be ae ell = None <-> bad_rest be ell (elements d)) ->
    ((if stx_is "..." a then (if ell then None else if be =? 0 then None else gcount d be ae true) else if ell then gcount d be (S ae) ell else gcount d (S be) ae ell) = None <->
     bad_rest be ell (a :: elements d))).
  { intros be ae ell a d IH. rewrite bad_rest_cons. destruct (stx_is "..." a) eqn:E.
    - apply stx_is_dots in E. destruct ell; [split; auto|]. destruct (Nat.eqb_spec be 0) as [->|NZ]; [split; auto|]. rewrite IH. split; [auto|]. intros [[_ [X|[X|X]]]|[X _]]; auto; try discriminate; contradiction.
    - assert (ND : ~ is_dots a) by (rewrite <- stx_is_dots; congruence). destruct ell; rewrite IH; split; auto; intros [[X _]|[_ X]]; auto; contradiction. }
  assert (END : forall be ell, ~ bad_rest be ell []).
  { intros be ell H. unfold bad_rest in H. destruct ell; [destruct H as [a [x [c [E _]]]]; destruct a; discriminate|].
    destruct H as [[_ [x [r [E _]]]]|[a [x [b [y [c [E _]]]]]]]; [discriminate|destruct a; discriminate]. }
  induction n as [|n IH]; intros p be ae ell L; [lia|].
  assert (LAST : forall (q : obj) be ell (r : option (nat * nat * bool * bool)), elements q = [] -> r <> None -> (r = None <-> bad_rest be ell (elements q))).
  { intros q b0 e0 r E NR. rewrite E. split; [contradiction|intros H; exfalso; eapply END; eauto]. }
  destruct p as [| | | | | | | | | | | | | | | |e loc|]; cbn [gcount]; try (apply LAST; [reflexivity|destruct ell; discriminate]).
  all: try (cbn [elements]; apply PAIR; intros; apply IH; cbn in L; lia).
  destruct e; try (apply LAST; [reflexivity|destruct ell; discriminate]). cbn [elements]. apply PAIR. intros; apply IH; cbn in L; lia.
Qed.
Lemma gvcount_refuses : forall v be ae ell, gvcount v be ae ell = None <-> bad_rest be ell v.
Proof.
  induction v as [|x r IH]; intros be ae ell; cbn [gvcount].
  - split; [discriminate|]. unfold bad_rest. destruct ell; [intros [a [y [c [E _]]]]; destruct a; discriminate|].
    intros [[_ [y [q [E _]]]]|[a [y [b [z [c [E _]]]]]]]; [discriminate|destruct a; discriminate].
  - rewrite bad_rest_cons. destruct (stx_is "..." x) eqn:E.
    + apply stx_is_dots in E. destruct ell; [split; auto|]. destruct (Nat.eqb_spec be 0) as [->|NZ]; [split; auto|]. rewrite IH. split; [auto|]. intros [[_ [X|[X|X]]]|[X _]]; auto; try discriminate; contradiction.
    + assert (ND : ~ is_dots x) by (rewrite <- stx_is_dots; congruence). destruct ell; rewrite IH; split; auto; intros [[X _]|[_ X]]; auto; contradiction.
Qed.
Lemma misplaced_bad xs : misplaced xs <-> bad_rest 0 false xs.
Proof. unfold misplaced, bad_rest. split; intros [H|H]; auto. left. apply H. Qed.
Theorem C58_ellipsis_refused : forall lits p e f,
  (stx_pair p <> None -> misplaced (elements p) -> gmatch lits (S f) p e = MErr) /\
  (forall v loc, p = OSyntax (OVec v) loc -> misplaced v -> gmatch lits (S (S f)) p e = MErr) /\
  (gcount p 0 0 false = None <-> misplaced (elements p)) /\ (forall v, gvcount v 0 0 false = None <-> misplaced v).
Proof.
  intros lits p e f. assert (P : gcount p 0 0 false = None <-> misplaced (elements p)) by (rewrite misplaced_bad; apply (gcount_refuses (S (length (elements p)))); auto).
  assert (V : forall v, gvcount v 0 0 false = None <-> misplaced v) by (intros v; rewrite misplaced_bad; apply gvcount_refuses).
  split; [|split; [|auto]].
  - intros NP M. cbn [gmatch]. destruct (stx_pair p); [|contradiction]. rewrite (proj2 P M). auto.
  - intros v loc -> M. cbn [gmatch stx_pair vec_elems gvec]. rewrite (proj2 (V v) M). auto.
Qed.
Example C58_ex_ellipsis_refused : misplaced (elements (to_stx (of_list [OSym (s2b "..."); OSym (s2b "x")]))) /\
  misplaced (elements (to_stx (of_list [OSym (s2b "x"); OSym (s2b "..."); OSym (s2b "y"); OSym (s2b "...")]))).
Proof.
  split; [left; eexists _, _; split; [reflexivity|eexists; reflexivity]|].
  right. eexists [_], _, [_], _, []. split; [reflexivity|]. split; eexists; reflexivity.
Qed.

(** A wildcard as an element of a list pattern: against an identifier the matcher
    raises an error instead of returning #f, so the later clauses are not tried. *)
Theorem C58_wildcard_error_refuted : exists p d, wf [] p /\ plain d = true /\ ~ (exists bs, pm p (to_stx d) bs) /\
  forall f, 3 <= f -> gmatch [] f (pobj p) (to_stx d) = MErr /\
    syntax_case [] f d [(pobj p, fun _ => Some true); (pobj PWild, fun _ => Some true)] = MErr.
Proof.
  exists (PList [PWild; PVar (s2b "x")] None), (OSym (s2b "a")).
  split; [|split; [reflexivity|split]].
  - constructor; [|discriminate]. constructor; [constructor|]. constructor; [|constructor]. constructor; [reflexivity|cbn; tauto].
  - intros [bs P]. ipm.
  - intros f Hf. do 3 (destruct f as [|f]; [lia|]). split; reflexivity.
Qed.

(** A literal as the tail of a list pattern: against a longer list the matcher raises
    an error. *)
Theorem C58_tail_literal_refuted : exists p d, wf [] p /\ plain d = true /\ ~ (exists bs, pm p (to_stx d) bs) /\
  forall f, 4 <= f -> gmatch [] f (pobj p) (to_stx d) = MErr.
Proof.
  exists (PList [PVar (s2b "x")] (Some (PLit (OFix 5)))), (of_list [OFix 1; OFix 2]).
  split; [|split; [reflexivity|split]].
  - constructor.
    + constructor; [|constructor]. constructor; [reflexivity|cbn; tauto].
    + intros t E. inversion E; subst. repeat split; [constructor; exact Logic.I|discriminate].
  - intros [bs P]. cbn in P. ipm.
  - intros f Hf. do 4 (destruct f as [|f]; [lia|]). reflexivity.
Qed.

(** A vector pattern with elements after the ellipsis: the element after it is
    matched with the subpattern at the front of the vector. *)
Theorem C58_vector_ellipsis_refuted : exists ps p qs d bs,
  pm (PVecEll ps p qs) (to_stx d) bs /\ forall f, 5 <= f -> gmatch [] f (pobj (PVecEll ps p qs)) (to_stx d) = MNo.
Proof.
  exists [PLit (OFix 1)], (PVar (s2b "x")), [PLit (OFix 2)], (OVec [OFix 1; OFix 7; OFix 2]), ([] ++ columns 1 [[to_stx (OFix 7)]] ++ []).
  split.
  - eapply PmVecEll with (es1 := [to_stx (OFix 1)]) (mids := [to_stx (OFix 7)]) (es2 := [to_stx (OFix 2)]).
    + constructor.
    + apply (PmlCons _ _ _ _ [] []); constructor.
    + constructor; constructor.
    + apply (PmlCons _ _ _ _ [] []); constructor.
  - intros f Hf. do 5 (destruct f as [|f]; [lia|]). reflexivity.
Qed.

(** The same list, written with a wrapped tail as a template (a . rest) makes it:
    the pattern matches, but the matcher returns #f when an ellipsis reaches the
    tail. *)
Theorem C58_wrapped_tail_refuted : exists p e d bs, wf [] p /\ tame p /\ strip e = d /\ pm p e bs /\
  forall f, 10 <= f -> gmatch [] f (pobj p) e = MNo /\ exists bs', gmatch [] f (pobj p) (to_stx d) = MOk bs'.
Proof.
  exists (PEll [] (PVar (s2b "x")) [] None),
         (OSyntax (OPair (to_stx (OFix 1)) (to_stx (of_list [OFix 2]))) OFalse), (of_list [OFix 1; OFix 2]),
         ([] ++ columns 1 [[to_stx (OFix 1)]; [to_stx (OFix 2)]] ++ [] ++ []).
  repeat split.
  - constructor; try constructor; try reflexivity; try (cbn; tauto); discriminate.
  - constructor; try constructor; discriminate.
  - eapply PmEll with (es1 := []) (mids := [to_stx (OFix 1); to_stx (OFix 2)]) (es2 := []) (rest := ONull).
    + cbn. repeat constructor.
    + intros x r H. inversion H.
    + constructor.
    + repeat constructor.
    + constructor.
    + constructor. constructor.
  - do 10 (destruct f as [|f]; [lia|]). reflexivity.
  - do 10 (destruct f as [|f]; [lia|]). eexists. reflexivity.
Qed.

(** ** Concrete cases *)
(** (let ((x e) ...) body rest ... . tail) style pattern: nested ellipsis, elements
    after an ellipsis, a literal and a variable tail *)
Definition ex_pat : pat :=
  PList [PLit (OSym (s2b "let")); PEll [] (PList [PVar (s2b "x"); PVar (s2b "e")] None) [] None;
         PEll [PVar (s2b "a")] (PVar (s2b "b")) [PVar (s2b "c")] (Some (PVar (s2b "t")))] None.
Definition S1 := OSym (s2b "p"). Definition S2 := OSym (s2b "q").
Definition ex_datum : obj :=
  of_list [OSym (s2b "let"); of_list [of_list [S1; OFix 1]; of_list [S2; OFix 2]];
           OPair (OFix 3) (OPair (OFix 4) (OPair (OFix 5) (OPair (OFix 6) S2)))].
Example C58_case : wf [OSym (s2b "let")] ex_pat /\ tame ex_pat /\ plain ex_datum = true /\
  exists bs, gmatch [OSym (s2b "let")] 60 (pobj ex_pat) (to_stx ex_datum) = MOk bs /\
  map strip bs = [of_list [S1; S2]; of_list [OFix 1; OFix 2]; OFix 3; of_list [OFix 4; OFix 5]; OFix 6; S2] /\
  map snd (vars 0 ex_pat) = [1; 1; 0; 1; 0; 0].
Proof.
  assert (V : forall x, special (s2b x) = false -> s2b x <> s2b "let" -> wf [OSym (s2b "let")] (PVar (s2b x))).
  { intros x H1 H2. constructor; auto. cbn [In]. intros [E|[]]. apply H2. congruence. }
  split; [|split; [|split; [reflexivity|]]].
  - unfold ex_pat. constructor; [|discriminate]. constructor; [constructor; cbn [literal]; split; [reflexivity|left; reflexivity]|].
    constructor.
    + constructor; try constructor; try discriminate. constructor; [apply V; [reflexivity|discriminate]|].
      constructor; [apply V; [reflexivity|discriminate]|constructor].
    + constructor; [|constructor]. constructor.
      * constructor; [apply V; [reflexivity|discriminate]|constructor].
      * apply V; [reflexivity|discriminate].
      * constructor; [apply V; [reflexivity|discriminate]|constructor].
      * intros t E. inversion E; subst. split; [apply (V "t"%string); [reflexivity|discriminate]|exact Logic.I].
  - unfold ex_pat. repeat (constructor; try discriminate).
  - eexists. split; [reflexivity|]. split; reflexivity.
Qed.
(** two clauses, the first one too short: the second is selected *)
Example C58_clauses :
  syntax_case [] 30 (of_list [OFix 1; OFix 2])
    [(pobj (PList [PVar (s2b "a")] None), fun _ => Some true);
     (pobj (PEll [PVar (s2b "a")] (PVar (s2b "b")) [] None), fun _ => Some true)]
  = MOk (1, [to_stx (OFix 1); of_list [to_stx (OFix 2)]]).
Proof. reflexivity. Qed.
Print Assumptions C58_match_partial.
Print Assumptions C58_match.
Print Assumptions C58_match_sound.
Print Assumptions C58_unique.
Print Assumptions C58_variables.
Print Assumptions C58_datum_flat.
Print Assumptions C58_first_clause.
Print Assumptions C58_wildcard_error_refuted.
Print Assumptions C58_tail_literal_refuted.
Print Assumptions C58_vector_ellipsis_refuted.
Print Assumptions C58_wrapped_tail_refuted.
Print Assumptions C58_ellipsis_refused.
