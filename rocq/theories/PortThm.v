(** C44: string ports. *)
From Coq Require Import ZArith NArith Bool Ascii String List Arith Lia.
From Verif Require Import Base Hashtable HashtableProofs Port.
Import ListNotations.
Local Open Scope list_scope.

(** ** Specification: a port is a queue of text *)

Inductive qport : Type :=
| QIn (rest : list byte)            (* what is still to be read *)
| QOut (text : list byte)           (* what was written since the last get-output-string *)
| QClosed (input : bool).

Definition written (o : pop) : list byte :=
  match o with
  | PPutChar _ c => [c]
  | PPutString _ s => s
  | PPutSub _ s start n => firstn n (skipn start s)
  | PNewline _ => [ascii_of_nat 10]
  | _ => []
  end.

Definition qstep (qs : list qport) (o : pop) : list qport * pres :=
  let write i (ok : bool) :=
    match nth_error qs i with
    | Some (QOut t) => if ok then (upd i (QOut (t ++ written o)) qs, PVoid) else (qs, PError)
    | Some (QClosed false) => (qs, PUndef)
    | _ => (qs, PError)
    end in
  let look i (f : list byte -> pres) (g : list byte -> list byte) :=
    match nth_error qs i with
    | Some (QIn r) => (upd i (QIn (g r)) qs, f r)
    | Some (QClosed true) => (qs, PUndef)
    | _ => (qs, PError)
    end in
  let first r := match r with c :: _ => PChar c | [] => PEof end in
  match o with
  | POpenIn s => (qs ++ [QIn (cstr s)], PPort (List.length qs))
  | POpenOut => (qs ++ [QOut []], PPort (List.length qs))
  | PPutChar i _ | PPutString i _ | PNewline i => write i true
  | PPutSub i s start n => write i (start + n <=? List.length s)
  | PGet i => match nth_error qs i with
              | Some (QOut t) => (upd i (QOut []) qs, PStr (cstr t))
              | Some (QClosed false) => (qs, PUndef)
              | _ => (qs, PError)
              end
  | PRead i => look i first (fun r => tl r)
  | PPeek i => look i first (fun r => r)
  | PReady i => look i (fun r => PBool (match r with [] => false | _ => true end)) (fun r => r)
  | PClose i => match nth_error qs i with
                | Some (QIn _) => (upd i (QClosed true) qs, PVoid)
                | Some (QOut _) => (upd i (QClosed false) qs, PVoid)
                | Some (QClosed _) => (qs, PUndef)
                | None => (qs, PError)
                end
  end.

Fixpoint qruns (qs : list qport) (os : list pop) : list qport * list pres :=
  match os with
  | [] => (qs, [])
  | o :: r => let '(qs1, x) := qstep qs o in
              let '(qs2, xs) := qruns qs1 r in (qs2, x :: xs)
  end.

(** ** Proofs *)

Definition matches (p : port) (q : qport) : Prop :=
  match q with
  | QIn r => input p = true /\ is_open p = true /\ skipn (pos (strm p)) (data (strm p)) = r
  | QOut t => input p = false /\ is_open p = true /\ firstn (pos (strm p)) (data (strm p)) = t /\
              pos (strm p) <= List.length (data (strm p))
  | QClosed b => input p = b /\ is_open p = false
  end.

Lemma putc_ok c s : pos s <= List.length (data s) ->
  firstn (pos (putc c s)) (data (putc c s)) = firstn (pos s) (data s) ++ [c] /\
  pos (putc c s) <= List.length (data (putc c s)).
Proof.
  intros H. unfold putc. cbn [data pos]. split.
  - assert (L : S (pos s) = List.length (firstn (pos s) (data s) ++ [c])).
    { rewrite app_length, firstn_length. simpl. lia. }
    replace (firstn (pos s) (data s) ++ c :: skipn (S (pos s)) (data s))
      with ((firstn (pos s) (data s) ++ [c]) ++ skipn (S (pos s)) (data s)) by now rewrite <- app_assoc.
    rewrite L. rewrite firstn_app, firstn_all, Nat.sub_diag. simpl. now rewrite app_nil_r.
  - rewrite app_length, firstn_length. simpl. lia.
Qed.

Lemma putcs_ok : forall b s, pos s <= List.length (data s) ->
  firstn (pos (putcs b s)) (data (putcs b s)) = firstn (pos s) (data s) ++ b /\
  pos (putcs b s) <= List.length (data (putcs b s)).
Proof.
  induction b as [|c b IH]; intros s H; cbn [putcs].
  - rewrite app_nil_r. auto.
  - destruct (putc_ok c s H) as [A B]. destruct (IH _ B) as [C D]. split; auto. rewrite C, A, <- app_assoc. reflexivity.
Qed.

Lemma fputs_ok : forall b s, pos s = List.length (data s) ->
  data (fputs b s) = data s ++ cstr b /\ pos (fputs b s) = List.length (data (fputs b s)).
Proof.
  induction b as [|c b IH]; intros s H; simpl; [rewrite app_nil_r; auto|].
  destruct (Ascii.eqb c NUL) eqn:E; [rewrite app_nil_r; auto|].
  assert (P : data (putc c s) = data s ++ [c]).
  { unfold putc. cbn [data]. rewrite H, firstn_all, skipn_all2 by lia. reflexivity. }
  assert (Q : pos (putc c s) = List.length (data (putc c s))).
  { rewrite P, app_length. simpl. rewrite H. lia. }
  destruct (IH _ Q) as [A B]. split; auto. rewrite A, P, <- app_assoc. reflexivity.
Qed.

Lemma skipn_nth {A} (l : list A) n : skipn n l = match nth_error l n with Some c => c :: skipn (S n) l | None => [] end.
Proof.
  revert n. induction l as [|a l IH]; intros [|n]; simpl; auto. rewrite IH. destruct (nth_error l n); auto.
Qed.

Lemma Forall2_upd' {A B} (R : A -> B -> Prop) la lb i a b :
  Forall2 R la lb -> R a b -> Forall2 R (upd i a la) (upd i b lb).
Proof. intros H. revert i. induction H; intros [|i] Hab; simpl; constructor; auto. Qed.

Lemma upd_nth_same {A} i (x : A) l : nth_error l i = Some x -> upd i x l = l.
Proof. revert i. induction l; intros [|i] H; simpl in *; try discriminate; [congruence|]. f_equal. auto. Qed.

Lemma step_matches ps qs o : Forall2 matches ps qs ->
  snd (pstep ps o) = snd (qstep qs o) /\ Forall2 matches (fst (pstep ps o)) (fst (qstep qs o)).
Proof.
  intros H. assert (L := Forall2_len _ _ _ H).
  assert (W : forall i (ok ok' : bool) (b : list byte) (f : stream -> stream), ok = ok' ->
     (forall s, pos s <= List.length (data s) ->
        firstn (pos (f s)) (data (f s)) = firstn (pos s) (data s) ++ b /\ pos (f s) <= List.length (data (f s))) ->
     let r := on_port false ps i (fun p => if ok then (set_stream i p (f (strm p)) ps, PVoid) else (ps, PError)) in
     let q := match nth_error qs i with
              | Some (QOut t) => if ok' then (upd i (QOut (t ++ b)) qs, PVoid) else (qs, PError)
              | Some (QClosed false) => (qs, PUndef)
              | _ => (qs, PError)
              end in
     snd r = snd q /\ Forall2 matches (fst r) (fst q)).
  { intros i ok ok' b f <- F r q. subst r q. unfold on_port.
    destruct (nth_error ps i) as [p|] eqn:Ep.
    - destruct (Forall2_nth _ _ _ _ _ H Ep) as (q & Eq & M). rewrite Eq.
      destruct q as [rest|t|[]]; simpl in M.
      + destruct M as (-> & -> & _). simpl. auto.
      + destruct M as (I & O & D & P). rewrite I, O. simpl. destruct ok; simpl; auto. split; auto.
        apply Forall2_upd'; auto. simpl. destruct (F _ P) as [A B]. rewrite A, D. auto.
      + destruct M as (-> & ->). simpl. auto.
      + destruct M as (-> & ->). simpl. auto.
    - assert (X : nth_error qs i = None). { apply nth_error_None. rewrite <- L. now apply nth_error_None. } rewrite X. simpl. auto. }
  assert (R : forall i (x : option byte -> pres) (back : bool) (f : list byte -> pres),
     (forall r, f r = x (match r with c :: _ => Some c | [] => None end)) ->
     let r := on_port true ps i (fun p => let '(c, s') := getc (strm p) in
                (set_stream i p (if back then ungetc c s' else s') ps, x c)) in
     let q := match nth_error qs i with
              | Some (QIn r) => (upd i (QIn (if back then r else tl r)) qs, f r)
              | Some (QClosed true) => (qs, PUndef)
              | _ => (qs, PError)
              end in
     snd r = snd q /\ Forall2 matches (fst r) (fst q)).
  { intros i x back f Fx r q. subst r q. unfold on_port.
    destruct (nth_error ps i) as [p|] eqn:Ep.
    - destruct (Forall2_nth _ _ _ _ _ H Ep) as (q & Eq & M). rewrite Eq.
      destruct q as [rest|t|[]]; simpl in M.
      + destruct M as (I & O & D). rewrite I, O. simpl. unfold getc.
        assert (K := skipn_nth (data (strm p)) (pos (strm p))).
        destruct (nth_error (data (strm p)) (pos (strm p))) as [c|] eqn:E.
        * simpl. rewrite Fx, <- D, K. split; auto. apply Forall2_upd'; auto. simpl. split; auto. split; auto.
          destruct back; [|reflexivity]. etransitivity; [|exact K]. cbn [ungetc pos data]. f_equal. lia.
        * simpl. rewrite Fx, <- D, K. split; auto. apply Forall2_upd'; auto. simpl. split; auto. split; auto.
          destruct back; simpl; auto.
      + destruct M as (-> & -> & _). simpl. auto.
      + destruct M as (-> & ->). simpl. auto.
      + destruct M as (-> & ->). simpl. auto.
    - assert (X : nth_error qs i = None). { apply nth_error_None. rewrite <- L. now apply nth_error_None. } rewrite X. simpl. auto. }
  destruct o as [s| |i c|i s|i s start n|i|i|i|i|i|i]; cbn [pstep qstep].
  - destruct (fputs_ok s (mkstream [] 0) eq_refl) as [A _]. simpl. rewrite L. split; auto.
    apply Forall2_app; auto. constructor; auto. simpl. rewrite A. auto.
  - simpl. rewrite L. split; auto. apply Forall2_app; auto. constructor; auto. simpl. auto.
  - apply (W i true true [c] (putc c) eq_refl). intros st P. now apply putc_ok.
  - apply (W i true true s (putcs s) eq_refl). intros st P. now apply putcs_ok.
  - apply (W i _ _ (firstn n (skipn start s)) (putcs (firstn n (skipn start s)))).
    + destruct (Nat.leb_spec start (List.length s)); simpl; auto. symmetry. apply Nat.leb_gt. lia.
    + intros st P. now apply putcs_ok.
  - apply (W i true true [ascii_of_nat 10] (putc (ascii_of_nat 10)) eq_refl). intros st P. now apply putc_ok.
  - unfold on_port. destruct (nth_error ps i) as [p|] eqn:Ep.
    + destruct (Forall2_nth _ _ _ _ _ H Ep) as (q & Eq & M). rewrite Eq.
      destruct q as [rest|t|[]]; simpl in M.
      * destruct M as (-> & -> & _). simpl. auto.
      * destruct M as (I & O & D & P). rewrite I, O. cbn [Bool.eqb].
        destruct (Nat.eqb_spec (pos (strm p)) 0) as [Z|Z].
        -- rewrite Z in D. simpl in D. subst t. split; auto. cbn [fst]. rewrite upd_nth_same; auto.
        -- unfold fread, to_start. cbn [data pos]. rewrite Nat.sub_0_r. replace (pos (strm p) <=? List.length (data (strm p))) with true
             by (symmetry; apply Nat.leb_le; lia).
           cbn [skipn fst snd]. rewrite D. split; auto. apply Forall2_upd'; auto. simpl. repeat split; auto. lia.
      * destruct M as (-> & ->). simpl. auto.
      * destruct M as (-> & ->). simpl. auto.
    + assert (X : nth_error qs i = None). { apply nth_error_None. rewrite <- L. now apply nth_error_None. } rewrite X. simpl. auto.
  - apply (R i (fun c => match c with Some c => PChar c | None => PEof end) false). intros [|c r]; auto.
  - apply (R i (fun c => match c with Some c => PChar c | None => PEof end) true). intros [|c r]; auto.
  - apply (R i (fun c => PBool match c with Some _ => true | None => false end) true). intros [|c r]; auto.
  - destruct (nth_error ps i) as [p|] eqn:Ep.
    + destruct (Forall2_nth _ _ _ _ _ H Ep) as (q & Eq & M). rewrite Eq.
      destruct q as [rest|t|b]; simpl in M.
      * destruct M as (I & -> & _). simpl. split; auto. apply Forall2_upd'; auto. simpl. auto.
      * destruct M as (I & -> & _). simpl. split; auto. apply Forall2_upd'; auto. simpl. auto.
      * destruct M as (I & ->). simpl. auto.
    + assert (X : nth_error qs i = None). { apply nth_error_None. rewrite <- L. now apply nth_error_None. } rewrite X. simpl. auto.
Qed.

Lemma runs_match : forall os ps qs, Forall2 matches ps qs ->
  snd (pruns ps os) = snd (qruns qs os) /\ Forall2 matches (fst (pruns ps os)) (fst (qruns qs os)).
Proof.
  induction os as [|o os IH]; intros ps qs H; [simpl; auto|].
  destruct (step_matches ps qs o H) as [A B]. simpl.
  destruct (pstep ps o) as [ps1 x], (qstep qs o) as [qs1 y]. simpl in *. subst y.
  destruct (IH ps1 qs1 B) as [C D]. destruct (pruns ps1 os), (qruns qs1 os). simpl in *. split; auto. congruence.
Qed.

(** ** C44 *)

(** Full claim: ports behave as queues and get-output-string does not change
    its port.  Proved: every history returns what the specification [qruns]
    returns, where get-output-string returns the text written since the previous
    get-output-string.  Missing: get-output-string forgets the text (refuted
    below). *)
Theorem C44_ports_are_queues_partial : forall os, snd (pruns [] os) = snd (qruns [] os).
Proof. intros os. apply runs_match. constructor. Qed.

(** In the specification, everything written to an output port that is not read
    back in between is returned in order ... *)
Definition writes_to (i : nat) (o : pop) : list byte :=
  match o with
  | PPutChar j _ | PPutString j _ | PNewline j => if Nat.eqb i j then written o else []
  | PPutSub j s start n => if Nat.eqb i j && (start + n <=? List.length s) then written o else []
  | _ => []
  end.

Lemma q_text i : forall os qs t, nth_error qs i = Some (QOut t) ->
  (forall o, In o os -> o <> PGet i /\ o <> PClose i) ->
  nth_error (fst (qruns qs os)) i = Some (QOut (t ++ List.concat (map (writes_to i) os))).
Proof.
  induction os as [|o os IH]; intros qs t H N; [simpl; rewrite app_nil_r; auto|].
  assert (L := nth_lt _ _ _ H).
  assert (S : nth_error (fst (qstep qs o)) i = Some (QOut (t ++ writes_to i o))).
  { destruct (N o (or_introl eq_refl)) as [N1 N2].
    assert (OTHER : forall j q, i <> j -> nth_error (upd j q qs) i = Some (QOut t)).
    { intros j q D. rewrite nth_upd_ne; auto. }
    assert (NX : t = t ++ []) by now rewrite app_nil_r.
    destruct o as [s| |j c|j s|j s start n|j|j|j|j|j|j]; cbn [qstep writes_to].
    1, 2: simpl; rewrite nth_error_app1, app_nil_r by auto; auto.
    1, 2, 4: destruct (Nat.eqb_spec i j) as [<-|D]; [rewrite H; simpl; now rewrite nth_upd_eq|
       rewrite app_nil_r; destruct (nth_error qs j) as [[r|u|[]]|]; simpl; auto].
    - destruct (Nat.eqb_spec i j) as [<-|D]; simpl.
      + rewrite H. destruct (start + n <=? List.length s); simpl; [now rewrite nth_upd_eq|now rewrite app_nil_r].
      + rewrite app_nil_r. destruct (nth_error qs j) as [[r|u|[]]|]; simpl; auto.
        destruct (start + n <=? List.length s); simpl; auto.
    - rewrite app_nil_r. assert (D : i <> j) by congruence. destruct (nth_error qs j) as [[r|u|[]]|]; simpl; auto.
    - rewrite app_nil_r. destruct (nth_error qs j) as [[r|u|[]]|] eqn:E; simpl; auto.
      destruct (Nat.eq_dec i j) as [<-|D]; [congruence|auto].
    - rewrite app_nil_r. destruct (nth_error qs j) as [[r|u|[]]|] eqn:E; simpl; auto.
      destruct (Nat.eq_dec i j) as [<-|D]; [congruence|auto].
    - rewrite app_nil_r. destruct (nth_error qs j) as [[r|u|[]]|] eqn:E; simpl; auto.
      destruct (Nat.eq_dec i j) as [<-|D]; [congruence|auto].
    - rewrite app_nil_r. assert (D : i <> j) by congruence. destruct (nth_error qs j) as [[r|u|b]|] eqn:E; simpl; auto. }
  simpl. destruct (qstep qs o) as [qs1 x]. simpl in S.
  assert (G := IH qs1 _ S (fun o I => N o (or_intror I))). destruct (qruns qs1 os). simpl in *. rewrite G. now rewrite <- app_assoc.
Qed.

Lemma pruns_app os1 os2 ps : pruns ps (os1 ++ os2) =
  (fst (pruns (fst (pruns ps os1)) os2), snd (pruns ps os1) ++ snd (pruns (fst (pruns ps os1)) os2)).
Proof.
  revert ps. induction os1 as [|o os1 IH]; intros ps; simpl; [destruct (pruns ps os2); auto|].
  destruct (pstep ps o) as [ps1 x]. rewrite IH. destruct (pruns ps1 os1). simpl. destruct (pruns l os2). reflexivity.
Qed.
Lemma qruns_app os1 os2 ps : qruns ps (os1 ++ os2) =
  (fst (qruns (fst (qruns ps os1)) os2), snd (qruns ps os1) ++ snd (qruns (fst (qruns ps os1)) os2)).
Proof.
  revert ps. induction os1 as [|o os1 IH]; intros ps; simpl; [destruct (qruns ps os2); auto|].
  destruct (qstep ps o) as [ps1 x]. rewrite IH. destruct (qruns ps1 os1). simpl. destruct (qruns l os2). reflexivity.
Qed.

(** The first get-output-string on a port returns the concatenation of everything
    written to that port since it was opened, whatever else is done in between. *)
Theorem C44_get_output_string_partial : forall os1 os2 i,
  nth_error (snd (pruns [] (os1 ++ [POpenOut]))) (List.length os1) = Some (PPort i) ->
  (forall o, In o os2 -> o <> PGet i /\ o <> PClose i) ->
  nul_free (List.concat (map (writes_to i) os2)) ->
  snd (pruns [] (os1 ++ POpenOut :: os2 ++ [PGet i])) =
  snd (pruns [] (os1 ++ POpenOut :: os2)) ++ [PStr (List.concat (map (writes_to i) os2))].
Proof.
  intros os1 os2 i HI N NF.
  assert (LQ : List.length (snd (qruns [] os1)) = List.length os1).
  { clear. generalize (@nil qport). induction os1 as [|o os1 IH]; intros qs; simpl; auto.
    destruct (qstep qs o) as [q1 x]. specialize (IH q1). destruct (qruns q1 os1). simpl in *. lia. }
  rewrite !C44_ports_are_queues_partial in *.
  change (os1 ++ POpenOut :: os2) with (os1 ++ ([POpenOut] ++ os2)).
  replace (os1 ++ POpenOut :: os2 ++ [PGet i]) with ((os1 ++ ([POpenOut] ++ os2)) ++ [PGet i]) by (rewrite <- app_assoc; reflexivity).
  rewrite (qruns_app _ [PGet i]). cbn [fst snd]. f_equal.
  rewrite qruns_app in HI. cbn [snd] in HI. rewrite nth_error_app2, LQ, Nat.sub_diag in HI by lia. simpl in HI. inversion HI as [HI'].
  set (qs := fst (qruns [] os1)) in *.
  assert (G : nth_error (fst (qruns qs [POpenOut])) i = Some (QOut [])).
  { simpl. rewrite <- HI', nth_error_app2, Nat.sub_diag by lia. reflexivity. }
  assert (T := q_text i os2 _ [] G N). cbn [app] in T.
  assert (E : fst (qruns [] (os1 ++ [POpenOut] ++ os2)) = fst (qruns (fst (qruns qs [POpenOut])) os2)).
  { rewrite (qruns_app os1). cbn [fst]. fold qs. rewrite (qruns_app [POpenOut]). reflexivity. }
  rewrite <- E in T. cbn [app] in T. set (qz := fst (qruns [] (os1 ++ POpenOut :: os2))) in *. change (os1 ++ [POpenOut] ++ os2) with (os1 ++ POpenOut :: os2). fold qz. cbn [qruns qstep]. rewrite HI'. rewrite T. cbn [snd]. now rewrite cstr_nul_free.
Qed.

(** Reading: the characters of the string in order, then eof for ever; peeking
    and asking for readiness never consume. *)
Fixpoint expected (s : list byte) (os : list pop) : list pres :=
  match os with
  | [] => []
  | PRead _ :: r => match s with c :: s' => PChar c :: expected s' r | [] => PEof :: expected [] r end
  | PPeek _ :: r => match s with c :: _ => PChar c | [] => PEof end :: expected s r
  | PReady _ :: r => PBool (match s with [] => false | _ => true end) :: expected s r
  | _ :: r => PVoid :: expected s r
  end.

Theorem C44_read_string : forall os s, nul_free s ->
  (forall o, In o os -> o = PRead 0 \/ o = PPeek 0 \/ o = PReady 0) ->
  snd (pruns [] (POpenIn s :: os)) = PPort 0 :: expected s os.
Proof.
  intros os s NF H. rewrite C44_ports_are_queues_partial. simpl. rewrite (cstr_nul_free s NF). clear NF.
  assert (G : forall os s, (forall o, In o os -> o = PRead 0 \/ o = PPeek 0 \/ o = PReady 0) ->
    snd (qruns [QIn s] os) = expected s os).
  { clear. induction os as [|o os IH]; intros s H; auto. cbn [qruns].
    assert (IH' : forall s, snd (qruns [QIn s] os) = expected s os) by (intros; apply IH; intros; apply H; now right).
    destruct (H o (or_introl eq_refl)) as [->|[->| ->]]; cbn [qstep nth_error upd expected].
    - destruct s as [|c s]; simpl; [specialize (IH' [])|specialize (IH' s)]; destruct (qruns _ os); simpl in *; now rewrite IH'.
    - specialize (IH' s). destruct (qruns _ os). simpl in *. now rewrite IH'.
    - specialize (IH' s). destruct (qruns _ os). simpl in *. now rewrite IH'. }
  specialize (G os s H). destruct (qruns [QIn s] os). simpl in *. now rewrite G.
Qed.

(** get-output-string empties the port: asking twice gives the text and then
    nothing, and the next text replaces the first. *)
Theorem C44_get_twice_refuted : exists os t, t <> [] /\
  snd (pruns [] (os ++ [PGet 0; PGet 0])) = snd (pruns [] os) ++ [PStr t; PStr []].
Proof.
  exists [POpenOut; PPutString 0 (list_ascii_of_string "abc")], (list_ascii_of_string "abc").
  split; [discriminate|reflexivity].
Qed.

(** A closed port is not rejected: using it is undefined behaviour. *)
Theorem C44_use_after_close_refuted : exists os, In PUndef (snd (pruns [] os)).
Proof. exists [POpenIn []; PClose 0; PRead 0]. simpl. tauto. Qed.

(** That is the only source of undefined behaviour. *)
Theorem C44_defined_without_close : forall os, (forall o i, In o os -> o <> PClose i) -> ~ In PUndef (snd (pruns [] os)).
Proof.
  intros os H. rewrite C44_ports_are_queues_partial.
  assert (G : forall os qs, (forall o i, In o os -> o <> PClose i) -> (forall i b, nth_error qs i <> Some (QClosed b)) ->
     ~ In PUndef (snd (qruns qs os))).
  { clear. induction os as [|o os IH]; intros qs H Q; simpl; auto.
    assert (U : forall j q, (forall b, q <> QClosed b) -> forall i b, nth_error (upd j q qs) i <> Some (QClosed b)).
    { intros j q Hq i b E. destruct (Nat.eq_dec j i) as [<-|D].
      - assert (L := nth_lt _ _ _ E). rewrite upd_length in L. rewrite nth_upd_eq in E by auto. exact (Hq b ltac:(congruence)).
      - rewrite nth_upd_ne in E by auto. exact (Q _ _ E). }
    assert (A : forall q, (forall b, q <> QClosed b) -> forall i b, nth_error (qs ++ [q]) i <> Some (QClosed b)).
    { intros q Hq i b E. apply nth_snoc in E. destruct E as [E|[_ E]]; [exact (Q _ _ E)|exact (Hq b ltac:(congruence))]. }
    assert (S : snd (qstep qs o) <> PUndef /\ forall i b, nth_error (fst (qstep qs o)) i <> Some (QClosed b)).
    { destruct o as [s| |j c|j s|j s start n|j|j|j|j|j|j]; cbn [qstep];
        try (split; [discriminate|apply A; discriminate]; fail);
        try (destruct (nth_error qs j) as [[r|t|b]|] eqn:E; try (destruct (Q _ _ E)); simpl;
             try destruct (start + n <=? List.length s);
             try (split; [discriminate|]; auto; apply U; discriminate); try (destruct r; split; [discriminate| |discriminate|]; apply U; discriminate); fail).
      destruct (H (PClose j) j (or_introl eq_refl) eq_refl). }
    destruct S as [S1 S2]. destruct (qstep qs o) as [qs1 x]. simpl in S1, S2.
    assert (I := IH qs1 (fun o' i' J => H o' i' (or_intror J)) S2). destruct (qruns qs1 os). simpl in *. intros [E|E]; auto. }
  apply G; auto. intros [|i] b; discriminate.
Qed.

(** ** A case *)
Local Definition B := list_ascii_of_string.
Example port_case :
  snd (pruns [] [POpenOut; POpenIn (B "xy"); PPutString 0 (B "he"); PPutSub 0 (B "hello") 2 3; PRead 1; PPeek 1; PPeek 1;
    PRead 1; PReady 1; PRead 1; PPutChar 0 "!"%char; PGet 0; PPutChar 0 "z"%char; PGet 0; PPutChar 1 "z"%char]) =
  [PPort 0; PPort 1; PVoid; PVoid; PChar "x"%char; PChar "y"%char; PChar "y"%char; PChar "y"%char; PBool false; PEof; PVoid;
   PStr (B "hello!"); PVoid; PStr (B "z"); PError].
Proof. reflexivity. Qed.

Print Assumptions C44_ports_are_queues_partial.
Print Assumptions C44_get_output_string_partial.
Print Assumptions C44_read_string.
Print Assumptions C44_get_twice_refuted.
Print Assumptions C44_use_after_close_refuted.
Print Assumptions C44_defined_without_close.
