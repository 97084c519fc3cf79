(** C74: files; C75: the arguments of the procedures on ports. *)
From Coq Require Import ZArith NArith Bool Ascii String List Arith Lia.
From Verif Require Import Base Hashtable HashtableProofs Port PortThm IO.
Import ListNotations.
Local Open Scope list_scope.
Local Open Scope nat_scope.

(** * Specification *)

(** The text that a call adds to port [i], given its result. *)
Definition to_port (i : nat) (a : arg) (b : list byte) : list byte := match a with APort j => if Nat.eqb j i then b else [] | _ => [] end.
Definition added (i : nat) (o : iop) (x : ires) : list byte :=
  match x, o with
  | IVoid, PutChar p (AChar c) => to_port i p [c]
  | IVoid, PutString p (AStr b) => to_port i p (cstr b)
  | IVoid, PutString3 p (AStr b) (AInt s) => to_port i p (skipn (Z.to_nat s) (cstr b))
  | IVoid, PutString4 p (AStr b) (AInt s) (AInt n) => to_port i p (firstn (Z.to_nat n) (skipn (Z.to_nat s) (cstr b)))
  | IVoid, Newline p => to_port i p ["010"%char]
  | _, _ => []
  end.
Fixpoint text (i : nat) (os : list iop) (xs : list ires) : list byte :=
  match os, xs with
  | o :: os, x :: xs => added i o x ++ text i os xs
  | _, _ => []
  end.
(** The calls that open file [f] for output *)
Definition opens (f : filename) (o : iop) : Prop := exists b, o = OpenOutFile (AStr b) true /\ cstr b = f.
Definition left_alone (f : filename) (os : list iop) : Prop := forall o, In o os -> ~ opens f o.
(** No open output port writes to file [f]. *)
Definition nobody_writes (w : io) (f : filename) : Prop :=
  forall j q off buf, nth_error (i_ports w) j = Some q -> i_read q = false -> i_open q = true -> i_chan q <> CFile f off buf.

(** Reading from port [i] with [rest] yet to be read: each read-char takes the next
    character, peek-char shows it, char-ready? tells whether there is one; nothing is said
    once the port is closed. *)
Definition next (rest : list byte) : ires := match rest with c :: _ => IChar c | [] => IEof end.
Fixpoint reads (i : nat) (rest : list byte) (os : list iop) (xs : list ires) : Prop :=
  match os, xs with
  | [], [] => True
  | o :: os, x :: xs =>
      match o with
      | ReadChar (APort j) _ => if Nat.eqb j i then x = next rest /\ reads i (tl rest) os xs else reads i rest os xs
      | PeekChar (APort j) _ => (j = i -> x = next rest) /\ reads i rest os xs
      | CharReady (APort j) _ => (j = i -> x = IBool (match rest with [] => false | _ => true end)) /\ reads i rest os xs
      | CloseIn (APort j) => if Nat.eqb j i then x = IVoid else reads i rest os xs
      | _ => reads i rest os xs
      end
  | _, _ => False
  end.

(** * Proofs *)
Lemma contents_store f n b d : contents f (store_file n b d) = if name_dec f n then Some b else contents f d.
Proof. reflexivity. Qed.
Lemma write_end b c : write_at (List.length b) c b = b ++ c.
Proof.
  unfold write_at. destruct c as [|x c]; [rewrite app_nil_r; auto|]. rewrite Nat.sub_diag. cbn [repeat]. rewrite app_nil_r, firstn_all.
  rewrite skipn_all2 by lia. rewrite app_nil_r. auto.
Qed.

(** No port writes to [f], but for the one excepted. *)
Definition quiet (w : io) (e : option nat) (f : filename) : Prop :=
  forall j q off buf, Some j <> e -> nth_error (i_ports w) j = Some q -> i_read q = false -> i_open q = true -> i_chan q <> CFile f off buf.
(** Port [i] writes to file [f], alone; [t] is what was put so far, the file
    holds [lo] at least. *)
Definition writer (w : io) (i : nat) (f : filename) (lo t : list byte) : Prop :=
  exists p b buf, nth_error (i_ports w) i = Some p /\ i_read p = false /\ i_open p = true /\ i_chan p = CFile f (List.length b) buf /\
    contents f (i_disk w) = Some b /\ t = b ++ buf /\ quiet w (Some i) f /\ exists s, b = lo ++ s.
(** The port is closed or writes nothing more: the file holds [t]. *)
Definition settled (w : io) (f : filename) (c : option (list byte)) : Prop := contents f (i_disk w) = c /\ nobody_writes w f.

(** Changes of the world by one call: a port is changed, a port is added, the disk. *)
Lemma upd_cases {A} i (x : A) l j y : nth_error (upd i x l) j = Some y -> (j = i /\ y = x /\ i < List.length l) \/ (j <> i /\ nth_error l j = Some y).
Proof.
  intros N. destruct (Nat.eq_dec j i) as [->|NE].
  - left. assert (i < List.length l) by (rewrite <- (upd_length i x); apply nth_error_Some; congruence). rewrite nth_upd_eq in N by auto. split; auto. split; auto. congruence.
  - right. rewrite nth_upd_ne in N by auto. auto.
Qed.
Lemma nth_snoc {A} (l : list A) x j y : nth_error (l ++ [x]) j = Some y -> (j = List.length l /\ y = x) \/ nth_error l j = Some y.
Proof.
  intros N. destruct (Nat.lt_ge_cases j (List.length l)); [rewrite nth_error_app1 in N by auto; auto|]. rewrite nth_error_app2 in N by auto.
  destruct (j - List.length l) as [|k] eqn:E; [left; split; [lia|injection N; auto]|destruct k; discriminate].
Qed.
Lemma quiet_nobody w f : quiet w None f <-> nobody_writes w f.
Proof. split; intros H j q off buf; [apply H; discriminate|intros _; apply H]. Qed.
Definition same_file (c c' : chan) : Prop := match c, c' with CMem _, CMem _ => True | CFile f _ _, CFile g _ _ => f = g | _, _ => False end.
Lemma put_same b c : same_file c (chan_put b c).
Proof. destruct c; simpl; auto. Qed.
Lemma get_same d k c : same_file c (snd (chan_get d k c)).
Proof.
  destruct c as [s|f off [|x r]]; simpl; auto.
  - destruct (getc s). exact Logic.I.
  - destruct (contents f d) as [b|]; simpl; auto. destruct (match skipn off b with [] => [] | _ => _ end); simpl; auto.
Qed.
Lemma unget_same x c : same_file c (chan_unget x c).
Proof. destruct c, x; simpl; auto. Qed.
Lemma same_trans a b c : same_file a b -> same_file b c -> same_file a c.
Proof. destruct a, b, c; simpl; intros; try contradiction; auto; congruence. Qed.
(** a changed port *)
Definition tamer (p q : iport) : Prop := i_read q = i_read p /\ (i_open q = true -> i_open p = true) /\ same_file (i_chan p) (i_chan q).
Lemma tamer_refl p : tamer p p.
Proof. split; auto. split; auto. destruct (i_chan p); simpl; auto. Qed.
Lemma tamer_trans p q r : tamer p q -> tamer q r -> tamer p r.
Proof. intros [A1 [A2 A3]] [B1 [B2 B3]]. split; [congruence|]. split; auto. eapply same_trans; eauto. Qed.
Lemma quiet_set w e f j p q : nth_error (i_ports w) j = Some p -> tamer p q -> quiet w e f -> quiet (set_port j q w) e f.
Proof.
  intros N [T1 [T2 T3]] Q k r off buf NE NK R O C. cbn in NK. apply upd_cases in NK as [[-> [-> L]]|[NJ NK]]; [|exact (Q k r off buf NE NK R O C)].
  rewrite C in T3. destruct (i_chan p) as [|g o1 b1] eqn:CP; [contradiction|]. simpl in T3. subst g. apply (Q j p o1 b1 NE N); auto. congruence.
Qed.
Lemma quiet_new w e f p d : quiet w e f -> (i_read p = true \/ forall off buf, i_chan p <> CFile f off buf) -> quiet (IO d (i_ports w ++ [p])) e f.
Proof.
  intros Q H k r off buf NE NK R O. cbn in NK. apply nth_snoc in NK as [[-> ->]|NK]; [|exact (Q k r off buf NE NK R O)].
  destruct H as [H|H]; [congruence|auto].
Qed.
Lemma quiet_disk w e f d : quiet w e f -> quiet (IO d (i_ports w)) e f.
Proof. intros Q. exact Q. Qed.

(** Writing out a buffer *)
Lemma spill_ports j n w : forall k, k <> j -> nth_error (i_ports (spill j n w)) k = nth_error (i_ports w) k.
Proof.
  intros k NE. unfold spill. destruct (nth_error (i_ports w) j) as [p|] eqn:N; auto. destruct (i_chan p) as [|f off buf]; auto. destruct (i_read p); auto.
  destruct (contents f (i_disk w)); auto. cbn. apply nth_upd_ne. auto.
Qed.
Lemma spill_port j n w p : nth_error (i_ports w) j = Some p -> exists q, nth_error (i_ports (spill j n w)) j = Some q /\ tamer p q /\ i_open q = i_open p /\ i_str q = i_str p.
Proof.
  intros N. unfold spill. rewrite N. destruct (i_chan p) as [|f off buf] eqn:C; [eauto using tamer_refl|]. destruct (i_read p) eqn:R; [eauto using tamer_refl|].
  destruct (contents f (i_disk w)); [|eauto using tamer_refl]. cbn. assert (L : j < List.length (i_ports w)) by (apply nth_error_Some; congruence). rewrite nth_upd_eq by auto.
  eexists. split; [reflexivity|]. split; [|auto]. split; [auto|]. split; [auto|]. rewrite C. reflexivity.
Qed.
Lemma spill_other w e f j n p : nth_error (i_ports w) j = Some p -> i_open p = true -> quiet w e f -> Some j <> e ->
  contents f (i_disk (spill j n w)) = contents f (i_disk w) /\ quiet (spill j n w) e f.
Proof.
  intros N O Q NE. unfold spill. rewrite N. destruct (i_chan p) as [|g off buf] eqn:C; auto. destruct (i_read p) eqn:R; auto.
  destruct (contents g (i_disk w)) as [b|] eqn:CB; auto. cbn [i_disk]. rewrite contents_store. destruct (name_dec f g) as [->|NF]; [exfalso; exact (Q j p off buf NE N R O C)|].
  split; auto. apply quiet_disk with (w := set_port j _ w). eapply quiet_set; eauto. split; [auto|]. split; [auto|]. rewrite C. reflexivity.
Qed.
Lemma flush_spill j w : exists n, flush j w = spill j n w.
Proof.
  unfold flush. destruct (nth_error (i_ports w) j) as [p|] eqn:N; [|exists 0; unfold spill; rewrite N; auto].
  destruct (i_chan p) as [|f off buf] eqn:C; [exists 0; unfold spill; rewrite N, C; auto|eauto].
Qed.
Lemma close_other w e f j p : nth_error (i_ports w) j = Some p -> i_open p = true -> quiet w e f -> Some j <> e ->
  contents f (i_disk (fst (close w j p))) = contents f (i_disk w) /\ quiet (fst (close w j p)) e f.
Proof.
  intros N O Q NE. unfold close. destruct (flush_spill j w) as [n ->]. destruct (spill_other w e f j n p N O Q NE) as [E Q1].
  destruct (spill_port j n w p N) as [q [N1 [T1 _]]]. rewrite N1. cbn [fst]. split; [exact E|]. eapply quiet_set; eauto. split; [auto|]. split; [discriminate|]. cbn. destruct (i_chan q); simpl; auto.
Qed.
Lemma close_ports w j p k : k <> j -> nth_error (i_ports (fst (close w j p))) k = nth_error (i_ports w) k.
Proof.
  intros NE. unfold close. destruct (flush_spill j w) as [n ->]. destruct (nth_error (i_ports (spill j n w)) j); cbn [fst]; [|apply spill_ports; auto].
  cbn. rewrite nth_upd_ne by auto. apply spill_ports. auto.
Qed.
Lemma flush_all_other n : forall w f, quiet w None f -> contents f (i_disk (flush_all n w)) = contents f (i_disk w) /\ quiet (flush_all n w) None f.
Proof.
  induction n as [|n IH]; intros w f Q; [auto|]. cbn [flush_all]. destruct (IH w f Q) as [E Q1]. destruct (nth_error (i_ports (flush_all n w)) n) as [p|] eqn:N; auto.
  destruct (i_open p) eqn:O; auto. destruct (flush_spill n (flush_all n w)) as [k ->]. destruct (spill_other _ None f n k p N O Q1 ltac:(discriminate)) as [E2 Q2].
  split; auto. congruence.
Qed.

(** ** One call *)
(** The port a call is about *)
Definition of_arg (a : arg) : option nat := match a with APort i => Some i | _ => None end.
Definition target (o : iop) : option nat :=
  match o with
  | CloseIn a | CloseOut a | GetOut a | ReadChar a _ | PeekChar a _ | CharReady a _ | PutChar a _ | PutString a _ | PutString3 a _ _ | PutString4 a _ _ _
  | Flush a | WriteChar _ a | Newline a => of_arg a
  | Spill i _ => Some i
  | _ => None
  end.
Lemma in_port_inv ps a i p : in_port ps a = Some (i, p) -> a = APort i /\ nth_error ps i = Some p /\ i_read p = true.
Proof. unfold in_port, port_of. destruct a; try discriminate. destruct (nth_error ps i0) as [q|] eqn:N; [|discriminate]. destruct (i_read q) eqn:R; [|discriminate]. intros E. injection E as <- <-. auto. Qed.
Lemma out_port_inv ps a i p : out_port_ ps a = Some (i, p) -> a = APort i /\ nth_error ps i = Some p /\ i_read p = false.
Proof. unfold out_port_, port_of. destruct a; try discriminate. destruct (nth_error ps i0) as [q|] eqn:N; [|discriminate]. destruct (i_read q) eqn:R; [discriminate|]. intros E. injection E as <- <-. auto. Qed.

(** What a call does to the world: nothing, a new port, a change of its port, writing out,
    closing, the end. *)
Inductive effect (w : io) (o : iop) : io -> ires -> Prop :=
| EfNone x : (forall b, x <> IVoid \/ added b o x = []) -> effect w o w x
| EfNew p d x : target o = None -> (d = i_disk w \/ exists b, o = OpenOutFile (AStr b) true /\ d = store_file (cstr b) [] (i_disk w)) ->
    (i_read p = true \/ (exists s, i_chan p = CMem s) \/ exists b, o = OpenOutFile (AStr b) true /\ i_chan p = CFile (cstr b) 0 []) ->
    effect w o (IO d (i_ports w ++ [p])) x
| EfSet i p c x : target o = Some i -> nth_error (i_ports w) i = Some p -> i_open p = true -> same_file (i_chan p) c ->
    (i_read p = false -> (exists f off buf, i_chan p = CFile f off buf) -> c = chan_put (added i o x) (i_chan p) /\ x = IVoid) ->
    effect w o (set_port i (with_chan p c) w) x
| EfSpill i n p : target o = Some i -> nth_error (i_ports w) i = Some p -> i_open p = true -> added i o IVoid = [] -> effect w o (spill i n w) IVoid
| EfClose i p : target o = Some i -> nth_error (i_ports w) i = Some p -> i_open p = true -> added i o IVoid = [] -> (o = if i_read p then CloseIn (APort i) else CloseOut (APort i)) ->
    effect w o (fst (close w i p)) IVoid
| EfExit : o = Exit -> effect w o (flush_all (List.length (i_ports w)) w) IVoid.

Lemma get_effect w o i p peek k g : in_port (i_ports w) (APort i) = Some (i, p) -> target o = Some i -> i_open p = true -> effect w o (fst (get peek k w i p g)) (snd (get peek k w i p g)).
Proof.
  intros I T O. apply in_port_inv in I as [_ [N R]]. unfold get. assert (S1 := get_same (i_disk w) k (i_chan p)). destruct (chan_get (i_disk w) k (i_chan p)) as [x c]. cbn [fst snd] in *.
  apply EfSet; auto; [destruct peek; auto; eapply same_trans; [exact S1|apply unget_same]|]. intros R2. congruence.
Qed.
Lemma put_effect w o i p b : nth_error (i_ports w) i = Some p -> target o = Some i -> i_open p = true -> added i o IVoid = b -> effect w o (fst (put b w i p)) (snd (put b w i p)).
Proof. intros N T O A. unfold put. cbn [fst snd]. apply EfSet; auto using put_same. intros _ _. rewrite A. auto. Qed.
Lemma none_effect w o x : x <> IVoid -> effect w o w x.
Proof. intros N. apply EfNone. auto. Qed.
Lemma to_port_self i b : to_port i (APort i) b = b.
Proof. cbn. rewrite Nat.eqb_refl. auto. Qed.
Lemma range_effect w o i p s start n : nth_error (i_ports w) i = Some p -> target o = Some i -> (0 <= start)%Z ->
  ((start <= Z.of_nat (List.length s))%Z -> (start + n <= Z.of_nat (List.length s))%Z -> added i o IVoid = firstn (Z.to_nat n) (skipn (Z.to_nat start) s)) ->
  effect w o (fst (put_range w (i, p) s start n)) (snd (put_range w (i, p) s start n)).
Proof.
  intros N T S0 A. unfold put_range. destruct (Z.leb_spec start (Z.of_nat (List.length s))); [|apply none_effect; discriminate].
  destruct (Z.leb_spec (start + n) (Z.of_nat (List.length s))); [|apply none_effect; discriminate]. unfold on. cbn [fst snd]. destruct (i_open p) eqn:O; [|apply none_effect; discriminate].
  apply put_effect; auto.
Qed.
Lemma step_effect w o : effect w o (fst (istep w o)) (snd (istep w o)).
Proof.
  destruct o; unfold istep; cbv zeta.
  - destruct name; try (apply none_effect; discriminate). destruct (contents (cstr b) (i_disk w)); [|apply none_effect; discriminate]. destruct ok; [|apply none_effect; discriminate].
    apply EfNew; [reflexivity|auto|auto].
  - destruct name; try (apply none_effect; discriminate). destruct ok; [|apply none_effect; discriminate].
    apply (EfNew w (OpenOutFile (AStr b) true) (mkio false true false (CFile (cstr b) 0 [])) (store_file (cstr b) [] (i_disk w)) (IPort (List.length (i_ports w)))); [reflexivity|right; eauto|right; right; cbn; eauto].
  - destruct s; try (apply none_effect; discriminate). apply EfNew; [reflexivity|auto|auto].
  - apply EfNew; [reflexivity|auto|right; left; cbn; eauto].
  - destruct (in_port (i_ports w) p) as [[i q]|] eqn:I; [|apply none_effect; discriminate]. apply in_port_inv in I as [-> [N R]]. unfold on. cbn [fst snd]. destruct (i_open q) eqn:O; [|apply none_effect; discriminate].
    replace (snd (close w i q)) with IVoid by reflexivity. apply EfClose; auto. rewrite R. auto.
  - destruct (out_port_ (i_ports w) p) as [[i q]|] eqn:I; [|apply none_effect; discriminate]. apply out_port_inv in I as [-> [N R]]. unfold on. cbn [fst snd]. destruct (i_open q) eqn:O; [|apply none_effect; discriminate].
    replace (snd (close w i q)) with IVoid by reflexivity. apply EfClose; auto. rewrite R. auto.
  - destruct (out_port_ (i_ports w) p) as [[i q]|] eqn:I; [|apply none_effect; discriminate]. apply out_port_inv in I as [-> [N R]]. destruct (i_str q); [|apply none_effect; discriminate].
    unfold on. cbn [fst snd]. destruct (i_open q) eqn:O; [|apply none_effect; discriminate]. destruct (i_chan q) as [s|f off buf] eqn:C; [|apply none_effect; discriminate].
    destruct (pos s =? 0); [apply none_effect; discriminate|]. destruct (fread (pos s) (to_start s)) as [[b|] s'];
      (apply EfSet; auto; [rewrite C; exact Logic.I|intros _ [f [off [buf X]]]; congruence]).
  - destruct (in_port (i_ports w) p) as [[i q]|] eqn:I; [|apply none_effect; discriminate]. assert (I' := I). apply in_port_inv in I' as [-> [N R]]. unfold on. cbn [fst snd]. destruct (i_open q) eqn:O; [|apply none_effect; discriminate].
    apply get_effect; auto.
  - destruct (in_port (i_ports w) p) as [[i q]|] eqn:I; [|apply none_effect; discriminate]. assert (I' := I). apply in_port_inv in I' as [-> [N R]]. unfold on. cbn [fst snd]. destruct (i_open q) eqn:O; [|apply none_effect; discriminate].
    apply get_effect; auto.
  - destruct (in_port (i_ports w) p) as [[i q]|] eqn:I; [|apply none_effect; discriminate]. assert (I' := I). apply in_port_inv in I' as [-> [N R]]. unfold on. cbn [fst snd]. destruct (i_open q) eqn:O; [|apply none_effect; discriminate].
    apply get_effect; auto.
  - destruct (out_port_ (i_ports w) p) as [[i q]|] eqn:I; [|apply none_effect; discriminate]. apply out_port_inv in I as [-> [N R]]. destruct c as [| |x| |]; try (apply none_effect; discriminate).
    unfold on. cbn [fst snd]. destruct (i_open q) eqn:O; [|apply none_effect; discriminate]. apply put_effect; auto. apply to_port_self.
  - destruct (out_port_ (i_ports w) p) as [[i q]|] eqn:I; [|apply none_effect; discriminate]. apply out_port_inv in I as [-> [N R]]. destruct s; try (apply none_effect; discriminate).
    unfold on. cbn [fst snd]. destruct (i_open q) eqn:O; [|apply none_effect; discriminate]. apply put_effect; auto. apply to_port_self.
  - destruct (out_port_ (i_ports w) p) as [[i q]|] eqn:I; [|apply none_effect; discriminate]. apply out_port_inv in I as [-> [N R]]. destruct s; try (apply none_effect; discriminate).
    destruct start as [| | |z|]; try (apply none_effect; discriminate). cbn [nat_arg]. destruct (Z.leb_spec 0 z); [|apply none_effect; discriminate].
    apply range_effect; auto. intros L1 _. cbn [added]. rewrite to_port_self. symmetry. apply firstn_all2. rewrite skipn_length. lia.
  - destruct (out_port_ (i_ports w) p) as [[i q]|] eqn:I; [|apply none_effect; discriminate]. apply out_port_inv in I as [-> [N R]]. destruct s; try (apply none_effect; discriminate).
    destruct start as [| | |z|]; try (apply none_effect; discriminate). cbn [nat_arg]. destruct (Z.leb_spec 0 z); [|apply none_effect; discriminate].
    destruct n as [| | |m|]; try (apply none_effect; discriminate). cbn [nat_arg]. destruct (Z.leb_spec 0 m); [|apply none_effect; discriminate].
    apply range_effect; auto. intros _ _. cbn [added]. apply to_port_self.
  - destruct (out_port_ (i_ports w) p) as [[i q]|] eqn:I; [|apply none_effect; discriminate]. apply out_port_inv in I as [-> [N R]]. unfold on. cbn [fst snd]. destruct (i_open q) eqn:O; [|apply none_effect; discriminate].
    cbn [fst snd]. destruct (flush_spill i w) as [n ->]. eapply EfSpill; eauto.
  - destruct c; try (apply none_effect; discriminate). destruct (out_port_ (i_ports w) p); apply none_effect; discriminate.
  - destruct (out_port_ (i_ports w) p) as [[i q]|] eqn:I; [|apply none_effect; discriminate]. apply out_port_inv in I as [-> [N R]].
    unfold on. cbn [fst snd]. destruct (i_open q) eqn:O; [|apply none_effect; discriminate]. apply put_effect; auto. apply to_port_self.
  - cbn [fst snd]. destruct (nth_error (i_ports w) i) as [p|] eqn:N; [|apply EfNone; auto]. destruct (i_open p) eqn:O; [|apply EfNone; auto]. eapply EfSpill; eauto.
  - apply EfExit. auto.
Qed.

Lemma quiet_step w e f o : quiet w e f -> (forall i, e = Some i -> target o <> Some i /\ o <> Exit) -> ~ opens f o ->
  contents f (i_disk (fst (istep w o))) = contents f (i_disk w) /\ quiet (fst (istep w o)) e f.
Proof.
  intros Q NE NO. assert (E := step_effect w o). destruct E as [x _|p d x TN D P|i p c x T N O S1 _|i n p T N O _|i p T N O _ _|EX].
  - auto.
  - split.
    + cbn. destruct D as [-> |[b [-> ->]]]; auto. rewrite contents_store. destruct (name_dec f (cstr b)) as [->|]; auto. exfalso. apply NO. exists b. auto.
    + apply quiet_new; auto. destruct P as [P|[[s P]|[b [-> P]]]]; auto; right; intros off buf; rewrite P; [discriminate|]. intros X. injection X as X _ _. apply NO. exists b. auto.
  - split; auto. eapply quiet_set; eauto. split; auto.
  - apply spill_other with (p := p); auto. intros X. symmetry in X. destruct (NE i X). auto.
  - apply close_other; auto. intros X. symmetry in X. destruct (NE i X). auto.
  - destruct e as [i|]; [destruct (NE i eq_refl); contradiction|]. apply flush_all_other. auto.
Qed.
Lemma flush_all_port n : forall w i p, nth_error (i_ports w) i = Some p -> exists q, nth_error (i_ports (flush_all n w)) i = Some q /\ tamer p q /\ i_open q = i_open p /\ (i_read p = true -> q = p).
Proof.
  induction n as [|n IH]; intros w i p N; [cbn; eauto 6 using tamer_refl|]. cbn [flush_all]. destruct (IH w i p N) as [q [N1 [T1 [O1 E1]]]].
  destruct (nth_error (i_ports (flush_all n w)) n) as [r|] eqn:N2; eauto 6. destruct (i_open r) eqn:O; eauto 6. destruct (flush_spill n (flush_all n w)) as [k ->].
  destruct (Nat.eq_dec i n) as [->|NE]; [|rewrite spill_ports by auto; eauto 6]. destruct (spill_port n k (flush_all n w) q N1) as [q2 [N3 [T3 [O3 S3]]]].
  exists q2. split; auto. split; [eapply tamer_trans; eauto|]. split; [congruence|]. intros R. specialize (E1 R). subst q. unfold spill in N3. rewrite N1 in N3. destruct (i_chan p); [congruence|]. rewrite R in N3. congruence.
Qed.
Lemma frame w o i p : target o <> Some i -> o <> Exit -> nth_error (i_ports w) i = Some p -> nth_error (i_ports (fst (istep w o))) i = Some p.
Proof.
  intros T0 NX N0. assert (E := step_effect w o). destruct E as [x _|q d x TN D P|j q c x T N O S1 _|j n q T N O _|j q T N O _ _|EX].
  - auto.
  - cbn. rewrite nth_error_app1; auto. apply nth_error_Some. congruence.
  - cbn. rewrite nth_upd_ne; auto. congruence.
  - rewrite spill_ports; auto. congruence.
  - rewrite close_ports; auto. congruence.
  - contradiction.
Qed.
Lemma iop_exit o : o = Exit \/ o <> Exit.
Proof. destruct o; auto; right; discriminate. Qed.
Lemma added_void i o x : x <> IVoid -> added i o x = [].
Proof. destruct x; try reflexivity. congruence. Qed.
Lemma added_target i o x : target o <> Some i -> added i o x = [].
Proof.
  assert (TP : forall a b, of_arg a <> Some i -> to_port i a b = []) by (intros a b H; destruct a as [| j | | |]; cbn in *; auto; destruct (Nat.eqb_spec j i); congruence).
  destruct x; try reflexivity. destruct o; cbn; intros H; try reflexivity; auto.
  - destruct c; auto.
  - destruct s; auto.
  - destruct s; auto. destruct start; auto.
  - destruct s; auto. destruct start; auto. destruct n; auto.
Qed.

Lemma writer_spill w i f lo t n : writer w i f lo t -> writer (spill i n w) i f lo t.
Proof.
  intros [p [b [buf [N [R [O [C [B [T [Q LO]]]]]]]]]]. unfold spill. rewrite N, C, R, B.
  assert (L : i < List.length (i_ports w)) by (apply nth_error_Some; congruence).
  exists (with_chan p (CFile f (List.length b + List.length (firstn n buf)) (skipn n buf))), (b ++ firstn n buf), (skipn n buf). cbn [i_ports i_disk].
  rewrite nth_upd_eq by auto. split; auto. split; auto. split; auto. split; [cbn; rewrite app_length; auto|]. rewrite contents_store. destruct (name_dec f f); [|contradiction].
  split; [rewrite write_end; auto|]. split; [rewrite <- app_assoc, firstn_skipn; auto|].
  split; [|destruct LO as [s ->]; exists (s ++ firstn n buf); rewrite app_assoc; auto].
  apply (quiet_set w (Some i) f i p (with_chan p _) N); auto. split; auto. split; auto. rewrite C. reflexivity.
Qed.
Lemma writer_flush w i f lo t : writer w i f lo t -> writer (flush i w) i f lo t /\ contents f (i_disk (flush i w)) = Some t.
Proof.
  intros W. split; [destruct (flush_spill i w) as [n ->]; apply writer_spill; auto|]. destruct W as [p [b [buf [N [R [O [C [B [T [Q LO]]]]]]]]]].
  unfold flush. rewrite N, C. unfold spill. rewrite N, C, R, B. cbn [i_disk]. rewrite contents_store. destruct (name_dec f f); [|contradiction]. rewrite firstn_all, write_end. congruence.
Qed.
Lemma writer_other w w' i f lo t : writer w i f lo t -> contents f (i_disk w') = contents f (i_disk w) -> quiet w' (Some i) f ->
  nth_error (i_ports w') i = nth_error (i_ports w) i -> writer w' i f lo t.
Proof. intros [p [b [buf [N [R [O [C [B [T [Q LO]]]]]]]]]] E Q' NE. exists p, b, buf. rewrite NE, E. auto 10. Qed.
Lemma flush_all_writer n : forall w i f lo t, writer w i f lo t -> writer (flush_all n w) i f lo t /\ (i < n -> contents f (i_disk (flush_all n w)) = Some t).
Proof.
  induction n as [|n IH]; intros w i f lo t W; [split; auto; lia|]. cbn [flush_all]. destruct (IH w i f lo t W) as [W1 H1].
  destruct (Nat.eq_dec i n) as [->|NE].
  - assert (W2 := W1). destruct W2 as [p [b [buf [N [R [O _]]]]]]. rewrite N, O. apply writer_flush in W1 as [W3 C3]. auto.
  - destruct (nth_error (i_ports (flush_all n w)) n) as [p|] eqn:N; [|split; auto; intros; apply H1; lia].
    destruct (i_open p) eqn:O; [|split; auto; intros; apply H1; lia]. destruct (flush_spill n (flush_all n w)) as [k ->]. assert (Q : quiet (flush_all n w) (Some i) f) by (destruct W1 as [? [? [? [? [? [? [? [? [? [? ?]]]]]]]]]]; auto).
    destruct (spill_other _ (Some i) f n k p N O Q ltac:(congruence)) as [E2 Q2]. split.
    + eapply writer_other; eauto. apply spill_ports. auto.
    + intros L. rewrite E2. apply H1. lia.
Qed.

(** The writer goes on with every call but the one that closes its port. *)
Lemma writer_step w i f lo t o : writer w i f lo t -> ~ opens f o -> o <> CloseOut (APort i) -> writer (fst (istep w o)) i f lo (t ++ added i o (snd (istep w o))).
Proof.
  intros W NO NC. assert (Q : quiet w (Some i) f) by (destruct W as [? [? [? [? [? [? [? [? [? [? ?]]]]]]]]]]; auto).
  assert (D : {target o = Some i} + {target o <> Some i}) by (destruct (target o) as [j|]; [destruct (Nat.eq_dec j i); [left|right]; congruence|right; discriminate]).
  destruct D as [T0|T0].
  - assert (E := step_effect w o). destruct E as [x H|q d x TN D P|j q c x T N O S1 H|j n q T N O H|j q T N O H X|EX].
    + destruct (H i) as [HX|HX]; [rewrite added_void by auto|rewrite HX]; rewrite app_nil_r; auto.
    + congruence.
    + assert (j = i) by congruence. subst j. destruct W as [p [b [buf [N0 [R [O0 [C [B [TT [_ LO]]]]]]]]]]. assert (q = p) by congruence. subst q.
      destruct H as [-> ->]; [auto|eauto|]. rewrite C. assert (L : i < List.length (i_ports w)) by (apply nth_error_Some; congruence).
      exists (with_chan p (CFile f (List.length b) (buf ++ added i o IVoid))), b, (buf ++ added i o IVoid). cbn [i_ports i_disk set_port chan_put]. rewrite nth_upd_eq by auto.
      split; auto. split; auto. split; auto. split; auto. split; auto. split; [rewrite TT, app_assoc; auto|]. split; [|exact LO].
      apply (quiet_set w (Some i) f i p (with_chan p _) N); auto. split; auto. split; auto. rewrite C. reflexivity.
    + assert (j = i) by congruence. subst j. rewrite H, app_nil_r. apply writer_spill. auto.
    + assert (j = i) by congruence. subst j. destruct W as [p [b [buf [N0 [R _]]]]]. assert (q = p) by congruence. subst q. rewrite R in X. congruence.
    + subst o. discriminate.
  - rewrite added_target by auto. rewrite app_nil_r. destruct (iop_exit o) as [->|NX].
    + cbn. apply flush_all_writer. auto.
    + destruct (quiet_step w (Some i) f o Q ltac:(intros k Hk; injection Hk as <-; auto) NO) as [E Q2]. eapply writer_other; eauto.
      destruct W as [p [b [buf [N0 _]]]]. rewrite N0. apply frame; auto.
Qed.
Lemma writer_close w i f lo t : writer w i f lo t -> snd (istep w (CloseOut (APort i))) = IVoid /\ settled (fst (istep w (CloseOut (APort i)))) f (Some t).
Proof.
  intros W. destruct (writer_flush w i f lo t W) as [W1 C1]. assert (Q : quiet (flush i w) (Some i) f) by (destruct W1 as [? [? [? [? [? [? [? [? [? [? ?]]]]]]]]]]; auto).
  destruct W as [p [b [buf [N [R [O _]]]]]]. destruct W1 as [p1 [b1 [buf1 [N1 _]]]].
  unfold istep. cbn [out_port_ port_of]. unfold out_port_, port_of. rewrite N, R. unfold on, close. cbn [fst snd]. rewrite O, N1. split; [reflexivity|]. split; [exact C1|].
  intros k r off bf NK RK OK. cbn in NK. apply upd_cases in NK as [[-> [-> L]]|[NE NK]]; [discriminate OK|]. apply (Q k r off bf); auto. congruence.
Qed.
Lemma settled_step w f c o : settled w f c -> ~ opens f o -> settled (fst (istep w o)) f c.
Proof.
  intros [C Q] NO. apply quiet_nobody in Q. destruct (quiet_step w None f o Q ltac:(discriminate) NO) as [E Q2]. split; [congruence|]. apply quiet_nobody. auto.
Qed.
Lemma left_cons f o os : left_alone f (o :: os) -> ~ opens f o /\ left_alone f os.
Proof. intros H. split; [apply H; left; auto|intros x Hx; apply H; right; auto]. Qed.
Lemma settled_runs os : forall w f c, settled w f c -> left_alone f os -> settled (fst (iruns w os)) f c.
Proof.
  induction os as [|o os IH]; intros w f c S0 LA; [auto|]. apply left_cons in LA as [NO LA]. cbn [iruns]. assert (S1 := settled_step w f c o S0 NO).
  destruct (istep w o) as [w1 x]. cbn [fst] in S1. specialize (IH w1 f c S1 LA). destruct (iruns w1 os) as [w2 xs]. auto.
Qed.
(** After its port is closed the file stays. *)
Definition finished (w : io) (i : nat) (f : filename) (lo t : list byte) : Prop :=
  settled w f (Some t) /\ (exists s, t = lo ++ s) /\ exists p, nth_error (i_ports w) i = Some p /\ i_read p = false /\ i_open p = false.
Lemma closed_step w i o p : nth_error (i_ports w) i = Some p -> i_open p = false -> 
  added i o (snd (istep w o)) = [] /\ exists q, nth_error (i_ports (fst (istep w o))) i = Some q /\ i_read q = i_read p /\ i_open q = false.
Proof.
  intros N O. assert (D : {target o = Some i} + {target o <> Some i}) by (destruct (target o) as [j|]; [destruct (Nat.eq_dec j i); [left|right]; congruence|right; discriminate]).
  destruct D as [T0|T0].
  - assert (E := step_effect w o). destruct E as [x H|q d x TN D P|j q c x T NJ OJ S1 H|j n q T NJ OJ H|j q T NJ OJ H X|EX]; try (assert (j = i) by congruence; subst j; congruence).
    + split; [destruct (H i) as [HX|HX]; auto using added_void|eauto].
    + congruence.
    + subst o. discriminate.
  - split; [apply added_target; auto|]. destruct (iop_exit o) as [->|NX]; [|exists p; split; auto using frame].
    cbn. destruct (flush_all_port (List.length (i_ports w)) w i p N) as [q [N1 [[T1 _] [O1 _]]]]. exists q. split; auto. split; congruence.
Qed.
Lemma finished_step w i f lo t o : finished w i f lo t -> ~ opens f o -> finished (fst (istep w o)) i f lo (t ++ added i o (snd (istep w o))).
Proof.
  intros [S0 [L [p [N [R O]]]]] NO. destruct (closed_step w i o p N O) as [A [q [N1 [R1 O1]]]]. rewrite A, app_nil_r. split; [apply settled_step; auto|]. split; auto.
  exists q. split; auto. split; auto. congruence.
Qed.
Lemma writer_done w i f lo t : writer w i f lo t -> finished (fst (istep w (CloseOut (APort i)))) i f lo t.
Proof.
  intros W. destruct (writer_close w i f lo t W) as [_ S0]. split; [exact S0|]. destruct W as [p [b [buf [N [R [O [C [B [T [Q [s LO]]]]]]]]]]]. split; [exists (s ++ buf); rewrite app_assoc; congruence|].
  unfold istep, out_port_, port_of. rewrite N, R. unfold on, close. cbn [fst snd]. rewrite O. destruct (flush_spill i w) as [n ->]. destruct (spill_port i n w p N) as [q [N1 [[T1 _] _]]]. rewrite N1.
  exists (mkio (i_read q) false (i_str q) (i_chan q)). cbn. rewrite nth_upd_eq by (apply nth_error_Some; congruence). split; auto. split; auto. cbn. congruence.
Qed.
Lemma iop_close i o : o = CloseOut (APort i) \/ o <> CloseOut (APort i).
Proof. destruct o; try (right; discriminate). destruct p; try (right; discriminate). destruct (Nat.eq_dec i0 i) as [->|]; [auto|right; congruence]. Qed.
Lemma written_runs os : forall w i f lo t, writer w i f lo t \/ finished w i f lo t -> left_alone f os ->
  writer (fst (iruns w os)) i f lo (t ++ text i os (snd (iruns w os))) \/ finished (fst (iruns w os)) i f lo (t ++ text i os (snd (iruns w os))).
Proof.
  induction os as [|o os IH]; intros w i f lo t H LA; [cbn; rewrite app_nil_r; auto|]. apply left_cons in LA as [NO LA]. cbn [iruns].
  assert (H1 : writer (fst (istep w o)) i f lo (t ++ added i o (snd (istep w o))) \/ finished (fst (istep w o)) i f lo (t ++ added i o (snd (istep w o)))).
  { destruct H as [W|F]; [|right; apply finished_step; auto]. destruct (iop_close i o) as [->|NC]; [|left; apply writer_step; auto].
    right. replace (added i (CloseOut (APort i)) (snd (istep w (CloseOut (APort i))))) with (@nil byte) by (destruct (snd (istep w (CloseOut (APort i)))); auto). rewrite app_nil_r. apply writer_done. auto. }
  destruct (istep w o) as [w1 x]. cbn [fst snd] in H1. specialize (IH w1 i f lo _ H1 LA). destruct (iruns w1 os) as [w2 xs]. cbn [fst snd text] in *. rewrite app_assoc. auto.
Qed.
Lemma written_file w i f lo t : writer w i f lo t \/ finished w i f lo t -> exists s rest, contents f (i_disk w) = Some (lo ++ s) /\ t = (lo ++ s) ++ rest.
Proof.
  intros [[p [b [buf [N [R [O [C [B [T [Q [s LO]]]]]]]]]]]|[[C _] [[s L] _]]].
  - exists s, buf. subst b. auto.
  - exists s, []. rewrite app_nil_r. subst t. auto.
Qed.
(** The calls after which all of the text is in the file *)
Definition pushes (i : nat) (o : iop) : Prop := o = Flush (APort i) \/ o = CloseOut (APort i) \/ o = Exit.
Lemma pushed w i f lo t o : writer w i f lo t \/ finished w i f lo t -> pushes i o -> snd (istep w o) = IVoid ->
  (writer (fst (istep w o)) i f t t \/ finished (fst (istep w o)) i f t t) /\ (o = CloseOut (APort i) -> nobody_writes (fst (istep w o)) f).
Proof.
  assert (UP : forall w' lo', writer w' i f lo' t -> contents f (i_disk w') = Some t -> writer w' i f t t).
  { intros w' lo' [p [b [buf [N [R [O [C [B [T [Q LO]]]]]]]]]] C'. exists p, b, buf. assert (b = t) by congruence. subst b. repeat (split; [assumption|]). exists []. rewrite app_nil_r. auto. }
  assert (FUP : forall w' lo', finished w' i f lo' t -> finished w' i f t t) by (intros w' lo' [S0 [_ P]]; split; auto; split; auto; exists []; rewrite app_nil_r; auto).
  intros [W|F] [-> |[-> | ->]] X.
  - split; [left|discriminate]. destruct (writer_flush w i f lo t W) as [W1 C1]. destruct W as [p [b [buf [N [R [O _]]]]]].
    unfold istep, out_port_, port_of. rewrite N, R. unfold on. cbn [fst snd]. rewrite O. eapply UP; eauto.
  - split; [right; eapply FUP; apply writer_done; eauto|]. intros _. destruct (writer_close w i f lo t W) as [_ [_ H]]. exact H.
  - split; [left|discriminate]. cbn. destruct (flush_all_writer (List.length (i_ports w)) w i f lo t W) as [W1 C1]. eapply UP; [exact W1|]. apply C1.
    destruct W as [p [b [buf [N _]]]]. apply nth_error_Some. congruence.
  - exfalso. destruct F as [_ [_ [p [N [R O]]]]]. revert X. unfold istep, out_port_, port_of. rewrite N, R. unfold on. cbn [fst snd]. rewrite O. discriminate.
  - exfalso. destruct F as [_ [_ [p [N [R O]]]]]. revert X. unfold istep, out_port_, port_of. rewrite N, R. unfold on. cbn [fst snd]. rewrite O. discriminate.
  - split; [right|discriminate]. apply (FUP _ lo). replace t with (t ++ added i Exit (snd (istep w Exit))) by apply app_nil_r. apply finished_step; auto. intros [b [X2 _]]. discriminate.
Qed.
Lemma open_writer w b : nobody_writes w (cstr b) -> writer (fst (istep w (OpenOutFile (AStr b) true))) (List.length (i_ports w)) (cstr b) [] [].
Proof.
  intros Q. cbn. exists (mkio false true false (CFile (cstr b) 0 [])), [], []. cbn [i_ports i_disk]. rewrite nth_error_app2 by lia. rewrite Nat.sub_diag. repeat (split; [reflexivity|]).
  rewrite contents_store. destruct (name_dec (cstr b) (cstr b)); [|contradiction]. repeat (split; [reflexivity|]). split; [|exists []; auto].
  intros j q off bf NE NK R O. cbn in NK. apply nth_snoc in NK as [[-> ->]|NK]; [congruence|]. exact (Q j q off bf NK R O).
Qed.
Lemma iruns_app a : forall w c, iruns w (a ++ c) = let '(w1, xs) := iruns w a in let '(w2, ys) := iruns w1 c in (w2, xs ++ ys).
Proof.
  induction a as [|o a IH]; intros w c; cbn [iruns app]; [destruct (iruns w c); auto|]. destruct (istep w o) as [w1 x]. rewrite IH. destruct (iruns w1 a) as [w2 xs]. destruct (iruns w2 c). auto.
Qed.
Lemma iruns_length os : forall w, List.length (snd (iruns w os)) = List.length os.
Proof. induction os as [|o os IH]; intros w; cbn [iruns]; auto. destruct (istep w o) as [w1 x]. specialize (IH w1). destruct (iruns w1 os). cbn in *. auto. Qed.

(** ** Reading *)
Lemma skip_skip {A} n m : forall l : list A, skipn m (skipn n l) = skipn (n + m) l.
Proof. induction n as [|n IH]; intros l; cbn [Nat.add skipn]; auto. destruct l; auto using skipn_nil. Qed.
Definition reader (w : io) (i : nat) (f : filename) (b rest : list byte) : Prop :=
  settled w f (Some b) /\ exists p off buf, nth_error (i_ports w) i = Some p /\ i_read p = true /\ i_open p = true /\ i_chan p = CFile f off buf /\ rest = buf ++ skipn off b.
Lemma reader_get w i f b rest p k : reader w i f b rest -> nth_error (i_ports w) i = Some p ->
  exists c, chan_get (i_disk w) k (i_chan p) = (hd_error rest, c) /\ exists off buf, c = CFile f off buf /\ tl rest = buf ++ skipn off b.
Proof.
  intros [[C _] [q [off [buf [N [R [O [CH E]]]]]]]] N2. assert (q = p) by congruence. subst q. rewrite CH. cbn. destruct buf as [|x r]; cbn in E.
  - rewrite C. destruct (skipn off b) as [|x r] eqn:K; cbn.
    + subst rest. eexists. split; [reflexivity|]. exists off, []. rewrite K. auto.
    + subst rest. eexists. split; [reflexivity|]. exists (off + S (List.length (firstn k r))), (firstn k r). split; auto.
      replace (skipn (off + S (List.length (firstn k r))) b) with (skipn k r); [symmetry; apply firstn_skipn|].
      assert (K2 : skipn (off + S (List.length (firstn k r))) b = skipn (S (List.length (firstn k r))) (skipn off b)) by (symmetry; apply skip_skip).
      rewrite K2, K. cbn [skipn]. rewrite firstn_length. destruct (Nat.min_spec k (List.length r)) as [[L ->]|[L ->]]; auto. rewrite !skipn_all2 by lia. auto.
  - subst rest. eexists. split; [reflexivity|]. exists off, r. auto.
Qed.
Lemma reader_set w i f b rest p off buf : reader w i f b rest -> nth_error (i_ports w) i = Some p -> 
  forall rest', rest' = buf ++ skipn off b -> reader (set_port i (with_chan p (CFile f off buf)) w) i f b rest'.
Proof.
  intros [[C Q] [q [off0 [buf0 [N [R [O [CH E]]]]]]]] N2 rest' ->. assert (q = p) by congruence. subst q. split; [split; auto|].
  - apply quiet_nobody. apply quiet_nobody in Q. eapply quiet_set; eauto. split; auto. split; auto. rewrite CH. reflexivity.
  - exists (with_chan p (CFile f off buf)), off, buf. cbn. rewrite nth_upd_eq by (apply nth_error_Some; congruence). auto.
Qed.
Lemma reader_read w i f b rest k : reader w i f b rest ->
  snd (istep w (ReadChar (APort i) k)) = next rest /\ reader (fst (istep w (ReadChar (APort i) k))) i f b (tl rest).
Proof.
  intros H. assert (H' := H). destruct H' as [_ [p [off [buf [N [R [O _]]]]]]]. destruct (reader_get w i f b rest p k H N) as [c [G [o2 [b2 [-> E]]]]].
  unfold istep, in_port, port_of. rewrite N, R. unfold on. cbn [fst snd]. rewrite O. unfold get. rewrite G. cbn [fst snd]. split; [destruct rest; auto|]. eapply reader_set; eauto.
Qed.
Lemma reader_peek w i f b rest k g : reader w i f b rest -> forall p, nth_error (i_ports w) i = Some p ->
  snd (get true k w i p g) = g (hd_error rest) /\ reader (fst (get true k w i p g)) i f b rest.
Proof.
  intros H p N. destruct (reader_get w i f b rest p k H N) as [c [G [o2 [b2 [-> E]]]]]. unfold get. rewrite G. cbn [fst snd]. split; auto. cbn [chan_unget].
  destruct rest as [|x r]; cbn [hd_error]; eapply reader_set; eauto. cbn in *. congruence.
Qed.
Lemma reader_other w i f b rest o : reader w i f b rest -> ~ opens f o ->
  (forall k, o <> ReadChar (APort i) k) -> (forall k, o <> PeekChar (APort i) k) -> (forall k, o <> CharReady (APort i) k) -> o <> CloseIn (APort i) -> reader (fst (istep w o)) i f b rest.
Proof.
  intros H NO A1 A2 A3 A4. assert (H' := H). destruct H' as [S0 [p [off [buf [N [R [O [CH E]]]]]]]].
  assert (K : nth_error (i_ports (fst (istep w o))) i = Some p).
  { assert (D : {target o = Some i} + {target o <> Some i}) by (destruct (target o) as [j|]; [destruct (Nat.eq_dec j i); [left|right]; congruence|right; discriminate]).
    destruct D as [T0|T0].
    - assert (AI : forall a, of_arg a = Some i -> a = APort i) by (intros a HA; destruct a; cbn in HA; congruence).
      assert (OP : out_port_ (i_ports w) (APort i) = None) by (unfold out_port_, port_of; rewrite N, R; auto).
      destruct o; cbn [target] in T0; try discriminate; try (apply AI in T0; subst); try (exfalso; eauto; fail); try (exfalso; eapply A1; reflexivity); try (exfalso; eapply A2; reflexivity); try (exfalso; eapply A3; reflexivity);
        unfold istep; cbv zeta; rewrite ?OP; try exact N.
      + destruct c; auto; rewrite ?OP; auto.
      + injection T0 as ->. cbn [fst]. rewrite N, O. unfold spill. rewrite N, CH, R. auto.
    - destruct (iop_exit o) as [->|NX]; [|apply frame; auto]. cbn. destruct (flush_all_port (List.length (i_ports w)) w i p N) as [q [N1 [_ [_ EQ]]]]. rewrite N1. f_equal. auto. }
  split; [apply settled_step; auto|]. exists p, off, buf. auto.
Qed.
Lemma reads_runs os : forall w i f b rest, reader w i f b rest -> left_alone f os -> reads i rest os (snd (iruns w os)).
Proof.
  induction os as [|o os IH]; intros w i f b rest H LA; [exact Logic.I|]. apply left_cons in LA as [NO LA].
  assert (GO : reader (fst (istep w o)) i f b rest -> reads i rest os (snd (iruns (fst (istep w o)) os))) by (intros H1; eapply IH; eauto).
  assert (EQ : snd (iruns w (o :: os)) = snd (istep w o) :: snd (iruns (fst (istep w o)) os)) by (cbn [iruns]; destruct (istep w o) as [w1 x]; cbn [fst snd]; destruct (iruns w1 os); auto).
  rewrite EQ. clear EQ. assert (H' := H). destruct H' as [S0 [p [off [buf [N [R [O [CH E]]]]]]]].
  assert (OT := reader_other w i f b rest o H NO). cbn [reads]. destruct o; try (apply GO; apply OT; discriminate).
  - destruct p0; try (apply GO; apply OT; discriminate). destruct (Nat.eqb_spec i0 i) as [->|NE]; [|apply GO; apply OT; try discriminate; congruence].
    unfold istep, in_port, port_of. rewrite N, R. unfold on. cbn [fst snd]. rewrite O. reflexivity.
  - destruct p0; try (apply GO; apply OT; discriminate). destruct (Nat.eqb_spec i0 i) as [->|NE]; [|apply GO; apply OT; try discriminate; congruence].
    destruct (reader_read w i f b rest k H) as [X Y]. split; auto. eapply IH; eauto.
  - destruct p0; try (apply GO; apply OT; discriminate). split; [intros -> |destruct (Nat.eq_dec i0 i) as [->|NE]; [|apply GO; apply OT; try discriminate; congruence]; apply GO];
      destruct (reader_peek w i f b rest k char_or_eof H p N) as [X Y]; unfold istep, in_port, port_of; rewrite N, R; unfold on; cbn [fst snd]; rewrite O; auto. rewrite X. destruct rest; auto.
  - destruct p0; try (apply GO; apply OT; discriminate). split; [intros -> |destruct (Nat.eq_dec i0 i) as [->|NE]; [|apply GO; apply OT; try discriminate; congruence]; apply GO];
      destruct (reader_peek w i f b rest k (fun x => IBool (match x with Some _ => true | None => false end)) H p N) as [X Y]; unfold istep, in_port, port_of; rewrite N, R; unfold on; cbn [fst snd]; rewrite O; auto. rewrite X. destruct rest; auto.
Qed.
Lemma open_reader w b c : nobody_writes w (cstr b) -> contents (cstr b) (i_disk w) = Some c -> reader (fst (istep w (OpenInFile (AStr b) true))) (List.length (i_ports w)) (cstr b) c c.
Proof.
  intros Q C. unfold istep. rewrite C. cbn [fst new_port]. split.
  - split; auto. apply quiet_nobody. apply quiet_new; auto. apply quiet_nobody. auto.
  - eexists _, 0, []. cbn [i_ports]. rewrite nth_error_app2 by lia. rewrite Nat.sub_diag. repeat (split; [reflexivity|]). reflexivity.
Qed.

(** * C74 *)
(** The calls have defined behaviour (none was on a closed port). *)
Definition defined (xs : list ires) : Prop := ~ In IUndef xs.

(** At any moment a file opened for output holds the beginning of what was put into the
    port: whatever the C library has written of its buffers so far, whatever happens to the
    other ports and files. *)
Theorem C74_prefix : forall w n i os w1 w2 xs,
  nobody_writes w (cstr n) -> istep w (OpenOutFile (AStr n) true) = (w1, IPort i) -> left_alone (cstr n) os -> iruns w1 os = (w2, xs) -> defined xs ->
  exists c rest, contents (cstr n) (i_disk w2) = Some c /\ text i os xs = c ++ rest.
Proof.
  intros w n i os w1 w2 xs NW OP LA RUN _. assert (W := open_writer w n NW). rewrite OP in W. cbn [fst] in W. cbn in OP. injection OP as _ E. rewrite E in W. assert (H := written_runs os w1 i (cstr n) [] [] (or_introl W) LA). rewrite RUN in H. cbn [fst snd app] in H.
  destruct (written_file _ _ _ _ _ H) as [s [rest [C T]]]. exists s, rest. auto.
Qed.

(** After flush-output-port, close-output-port or exit all of it is in the file, and stays
    there: what is put later comes after it. *)
Theorem C74_durable : forall w n i os o os' w1 w2 xs xs',
  nobody_writes w (cstr n) -> istep w (OpenOutFile (AStr n) true) = (w1, IPort i) -> left_alone (cstr n) (os ++ o :: os') -> pushes i o ->
  iruns w1 (os ++ o :: os') = (w2, xs ++ IVoid :: xs') -> List.length xs = List.length os -> defined (xs ++ IVoid :: xs') ->
  exists c rest, contents (cstr n) (i_disk w2) = Some (text i os xs ++ c) /\ text i os' xs' = c ++ rest.
Proof.
  intros w n i os o os' w1 w2 xs xs' NW OP LA PU RUN LEN _. assert (W := open_writer w n NW). rewrite OP in W. cbn [fst] in W. cbn in OP. injection OP as _ E. rewrite E in W.
  assert (LA1 : left_alone (cstr n) os) by (intros k Hk; apply LA, in_or_app; auto). assert (LA2 : left_alone (cstr n) os') by (intros k Hk; apply LA, in_or_app; right; right; auto).
  assert (H := written_runs os w1 i (cstr n) [] [] (or_introl W) LA1). rewrite iruns_app in RUN. assert (L1 := iruns_length os w1). destruct (iruns w1 os) as [wa ya]. cbn [fst snd app] in H, L1.
  cbn [iruns] in RUN. assert (P := pushed wa i (cstr n) [] (text i os ya) o H PU). destruct (istep wa o) as [wb x]. cbn [fst snd] in P. destruct (iruns wb os') as [wc yc] eqn:RC. injection RUN as -> RX.
  assert (Q : ya = xs /\ x :: yc = IVoid :: xs').
  { clear -RX L1 LEN. assert (L : List.length ya = List.length xs) by congruence. clear L1 LEN. revert xs L RX. induction ya as [|y ya IH]; intros [|z xs] L RX; cbn in *; try discriminate; auto. injection RX as -> RX. injection L as L. destruct (IH xs L RX) as [-> R]. auto. }
  destruct Q as [-> Q]. injection Q as -> ->. destruct (P eq_refl) as [P1 _]. assert (H2 := written_runs os' wb i (cstr n) _ _ P1 LA2). rewrite RC in H2. cbn [fst snd] in H2.
  destruct (written_file _ _ _ _ _ H2) as [s [rest [C T]]]. exists s, rest. split; auto. rewrite <- app_assoc in T. apply app_inv_head in T. auto.
Qed.
(** In particular: a file holds exactly what was put into its port, once that is closed;
    and the file may be opened again. *)
Theorem C74_complete : forall w n i os w1 w2 xs,
  nobody_writes w (cstr n) -> istep w (OpenOutFile (AStr n) true) = (w1, IPort i) -> left_alone (cstr n) os ->
  iruns w1 (os ++ [CloseOut (APort i)]) = (w2, xs ++ [IVoid]) -> defined (xs ++ [IVoid]) ->
  contents (cstr n) (i_disk w2) = Some (text i os xs) /\ nobody_writes w2 (cstr n).
Proof.
  intros w n i os w1 w2 xs NW OP LA RUN _. assert (W := open_writer w n NW). rewrite OP in W. cbn [fst] in W. cbn in OP. injection OP as _ E. rewrite E in W.
  assert (H := written_runs os w1 i (cstr n) [] [] (or_introl W) LA). rewrite iruns_app in RUN. destruct (iruns w1 os) as [wa ya]. cbn [fst snd app] in H. cbn [iruns] in RUN.
  assert (P := pushed wa i (cstr n) [] (text i os ya) (CloseOut (APort i)) H (or_intror (or_introl eq_refl))). destruct (istep wa (CloseOut (APort i))) as [wb x]. cbn [fst snd] in P. injection RUN as -> RX.
  apply app_inj_tail in RX as [-> ->]. destruct (P eq_refl) as [P1 NB]. split; auto. destruct (written_file _ _ _ _ _ P1) as [s [rest [C T]]]. rewrite C. f_equal.
  assert (L : List.length (text i os xs) = List.length ((text i os xs ++ s) ++ rest)) by congruence. rewrite !app_length in L. destruct s; [apply app_nil_r|cbn in L; lia].
Qed.

(** A file read while nobody writes to it gives its characters, one after the other, and
    then end-of-file. *)
Theorem C74_read : forall w n i b os w1 w2 xs,
  nobody_writes w (cstr n) -> contents (cstr n) (i_disk w) = Some b -> istep w (OpenInFile (AStr n) true) = (w1, IPort i) ->
  left_alone (cstr n) os -> iruns w1 os = (w2, xs) -> defined xs -> reads i b os xs.
Proof.
  intros w n i b os w1 w2 xs NW C OP LA RUN _. assert (R := open_reader w n b NW C). rewrite OP in R. cbn [fst] in R. unfold istep in OP. rewrite C in OP. injection OP as _ E. rewrite E in R.
  assert (H := reads_runs os w1 i (cstr n) b b R LA). rewrite RUN in H. exact H.
Qed.

(** What was put into a file comes out of it. *)
Lemma reads_all j : forall ks t ys, List.length ks = S (List.length t) -> reads j t (map (ReadChar (APort j)) ks) ys -> ys = map IChar t ++ [IEof].
Proof.
  induction ks as [|k ks IH]; intros t ys L H; [discriminate|]. cbn [map] in H. destruct ys as [|y ys]; [destruct H|]. cbn [reads] in H. rewrite Nat.eqb_refl in H. destruct H as [-> H].
  destruct t as [|c t]; cbn in *.
  - destruct ks; [|discriminate]. destruct ys; [auto|destruct H].
  - f_equal. apply IH; auto.
Qed.
Theorem C74_round_trip : forall w n i j os ks w1 w2 w3 w4 xs ys,
  nobody_writes w (cstr n) -> istep w (OpenOutFile (AStr n) true) = (w1, IPort i) -> left_alone (cstr n) os ->
  iruns w1 (os ++ [CloseOut (APort i)]) = (w2, xs ++ [IVoid]) -> defined (xs ++ [IVoid]) ->
  istep w2 (OpenInFile (AStr n) true) = (w3, IPort j) -> iruns w3 (map (ReadChar (APort j)) ks) = (w4, ys) -> List.length ks = S (List.length (text i os xs)) -> defined ys ->
  ys = map IChar (text i os xs) ++ [IEof].
Proof.
  intros w n i j os ks w1 w2 w3 w4 xs ys NW OP LA RUN D OP2 RUN2 L D2. destruct (C74_complete w n i os w1 w2 xs NW OP LA RUN D) as [C NB].
  apply (reads_all j ks); auto. apply (C74_read w2 n j (text i os xs) (map (ReadChar (APort j)) ks) w3 w4 ys); auto. intros o Ho. apply in_map_iff in Ho as [k [<- _]]. intros [b [X _]]. discriminate.
Qed.

(** Nothing else changes a file, or makes one; a file that is not there cannot be opened
    for input. *)
Theorem C74_others_unchanged : forall w f os w2 xs, nobody_writes w f -> left_alone f os -> iruns w os = (w2, xs) -> contents f (i_disk w2) = contents f (i_disk w).
Proof.
  intros w f os w2 xs NW LA RUN. assert (S0 : settled w f (contents f (i_disk w))) by (split; auto). assert (H := settled_runs os w f _ S0 LA). rewrite RUN in H. exact (proj1 H).
Qed.
Theorem C74_missing : forall w n os w2 xs k b ok, nobody_writes w (cstr n) -> contents (cstr n) (i_disk w) = None -> left_alone (cstr n) os -> iruns w os = (w2, xs) ->
  nth_error os k = Some (OpenInFile (AStr b) ok) -> cstr b = cstr n -> nth_error xs k = Some (IFail "open-input-file").
Proof.
  intros w n os w2 xs k b ok NW C LA RUN NK EB. assert (S0 : settled w (cstr n) None) by (split; auto). clear NW C. revert w k xs w2 S0 RUN NK. induction os as [|o os IH]; intros w k xs w2 S0 RUN NK; [destruct k; discriminate|].
  apply left_cons in LA as [NO LA]. assert (S1 := settled_step w _ _ o S0 NO). cbn [iruns] in RUN. destruct k as [|k]; cbn in NK.
  - injection NK as ->. destruct S0 as [C _]. unfold istep in RUN. rewrite EB, C in RUN. destruct (iruns w os). injection RUN as _ <-. reflexivity.
  - destruct (istep w o) as [w1 x]. cbn [fst] in S1. destruct (iruns w1 os) as [w3 ys] eqn:R. injection RUN as -> <-. cbn. apply (IH LA w1 k ys w2); auto.
Qed.

(** Without the premise that no other open port writes to the file: two ports on one file
    write over each other. *)
Definition F1 : list byte := list_ascii_of_string "f".
Definition str (s : string) : arg := AStr (list_ascii_of_string s).
Theorem C74_two_ports_refuted : exists w n i os w1 w2 xs, istep w (OpenOutFile (AStr n) true) = (w1, IPort i) /\ left_alone (cstr n) os /\
  iruns w1 (os ++ [CloseOut (APort i)]) = (w2, xs ++ [IVoid]) /\ defined (xs ++ [IVoid]) /\ contents (cstr n) (i_disk w2) <> Some (text i os xs) /\
  forall c, contents (cstr n) (i_disk w2) = Some c -> ~ exists rest, text i os xs = c ++ rest.
Proof.
  exists (fst (istep (IO [] []) (OpenOutFile (AStr F1) true))), F1, 1, [PutString (APort 1) (str "abc"); Flush (APort 1); PutString (APort 0) (str "XY"); CloseOut (APort 0)].
  eexists _, _, [IVoid; IVoid; IVoid; IVoid]. split; [reflexivity|]. split; [|split; [vm_compute; reflexivity|split; [|split]]].
  - intros o H. cbn in H. repeat (destruct H as [<-|H]; [intros [b [X _]]; discriminate|]). destruct H.
  - intros H. cbn in H. repeat (destruct H as [H|H]; [discriminate|]). destruct H.
  - vm_compute. discriminate.
  - intros c X. vm_compute in X. injection X as <-. intros [rest X]. vm_compute in X. discriminate.
Qed.

(** A program: a file is written in two pieces with a part of the buffer written out in
    between, flushed, written to again and lost at a crash; then written properly and read. *)
Example C74_example :
  let w0 := IO [(list_ascii_of_string "g", list_ascii_of_string "old")] [] in
  let os := [PutString (APort 0) (str "hello"); Spill 0 2; PutChar (APort 0) (AChar " "%char); PutString4 (APort 0) (str "a world") (AInt 2) (AInt 3); Flush (APort 0); Newline (APort 0)] in
  let w1 := fst (istep w0 (OpenOutFile (AStr F1) true)) in
  nobody_writes w0 F1 /\ left_alone F1 os /\ snd (istep w0 (OpenOutFile (AStr F1) true)) = IPort 0 /\
  snd (iruns w1 os) = [IVoid; IVoid; IVoid; IVoid; IVoid; IVoid] /\
  contents F1 (i_disk (fst (iruns w1 (firstn 2 os)))) = Some (list_ascii_of_string "he") /\
  contents F1 (i_disk (fst (iruns w1 os))) = Some (list_ascii_of_string "hello wor") /\
  snd (iruns w1 (os ++ [CloseOut (APort 0); OpenInFile (AStr F1) true; ReadChar (APort 1) 3; PeekChar (APort 1) 0; CharReady (APort 1) 0; ReadChar (APort 1) 0; OpenInFile (str "h") true]))
  = repeat IVoid 7 ++ [IPort 1; IChar "h"; IChar "e"; IBool true; IChar "e"; IFail "open-input-file"] /\
  contents F1 (i_disk (fst (iruns w1 (os ++ [CloseOut (APort 0)])))) = Some (list_ascii_of_string "hello wor" ++ ["010"%char]).
Proof.
  cbv zeta. split; [intros j q off buf N; destruct j; discriminate|]. split.
  - intros o H. cbn in H. repeat (destruct H as [<-|H]; [intros [b [X _]]; discriminate|]). destruct H.
  - vm_compute. auto 10.
Qed.
Print Assumptions C74_prefix.
Print Assumptions C74_durable.
Print Assumptions C74_complete.
Print Assumptions C74_read.
Print Assumptions C74_round_trip.
Print Assumptions C74_others_unchanged.
Print Assumptions C74_missing.
Print Assumptions C74_two_ports_refuted.

(** * C75 *)
(** ** Specification: what the procedures ask of their arguments *)
Inductive want : Type := WStr | WIn | WOut | WOutStr | WChar | WNat.
Definition fits (ps : list iport) (x : want) (a : arg) : Prop :=
  match x, a with
  | WStr, AStr _ => True
  | WIn, APort i => exists p, nth_error ps i = Some p /\ i_read p = true
  | WOut, APort i => exists p, nth_error ps i = Some p /\ i_read p = false
  | WOutStr, APort i => exists p, nth_error ps i = Some p /\ i_read p = false /\ i_str p = true
  | WChar, AChar _ => True
  | WNat, AInt z => (0 <= z)%Z
  | _, _ => False
  end.
Definition asked (x : want) : string :=
  match x with
  | WStr => "string?" | WIn => "input-port?" | WOut => "output-port?" | WOutStr => "(and output-port? string-port?)" | WChar => "char?" | WNat => "integer?"
  end.
(** The name of the procedure and its arguments with what is asked of each *)
Definition contract (o : iop) : string * list (arg * want) :=
  match o with
  | OpenInFile a _ => ("open-input-file", [(a, WStr)])
  | OpenOutFile a _ => ("open-output-file", [(a, WStr)])
  | OpenInStr a => ("open-input-string", [(a, WStr)])
  | OpenOutStr => ("open-output-string", [])
  | CloseIn a => ("close-input-port", [(a, WIn)])
  | CloseOut a => ("close-output-port", [(a, WOut)])
  | GetOut a => ("get-output-string", [(a, WOutStr)])
  | ReadChar a _ => ("read-char", [(a, WIn)])
  | PeekChar a _ => ("peek-char", [(a, WIn)])
  | CharReady a _ => ("char-ready?", [(a, WIn)])
  | PutChar p c => ("put-char", [(p, WOut); (c, WChar)])
  | PutString p s => ("put-string", [(p, WOut); (s, WStr)])
  | PutString3 p s a => ("put-string", [(p, WOut); (s, WStr); (a, WNat)])
  | PutString4 p s a n => ("put-string", [(p, WOut); (s, WStr); (a, WNat); (n, WNat)])
  | Flush p => ("flush-output-port", [(p, WOut)])
  | WriteChar c p => ("write-char", [(c, WChar); (p, WOut)])
  | Newline p => ("newline", [(p, WOut)])
  | Spill _ _ => ("", [])
  | Exit => ("exit", [])
  end%string.
(** Argument number [k], [a], is the first that is not as asked. *)
Definition first_wrong (ps : list iport) (l : list (arg * want)) (k : nat) (a : arg) (x : want) : Prop :=
  nth_error l k = Some (a, x) /\ ~ fits ps x a /\ forall j b y, j < k -> nth_error l j = Some (b, y) -> fits ps y b.
Definition all_fit (ps : list iport) (l : list (arg * want)) : Prop := forall b y, In (b, y) l -> fits ps y b.
(** an error was raised *)
Definition is_error (x : ires) : Prop := match x with IArg _ _ _ | IRange _ | IUnbound _ => True | _ => False end.

(** ** Proofs *)
Lemma fits_in ps a : match in_port ps a with Some _ => fits ps WIn a | None => ~ fits ps WIn a end.
Proof.
  unfold in_port, port_of. destruct a; cbn; auto. destruct (nth_error ps i) as [p|] eqn:N; [|intros [q [X _]]; discriminate]. destruct (i_read p) eqn:R; eauto. intros [q [X Y]]. congruence.
Qed.
Lemma fits_out ps a : match out_port_ ps a with Some _ => fits ps WOut a | None => ~ fits ps WOut a end.
Proof.
  unfold out_port_, port_of. destruct a; cbn; auto. destruct (nth_error ps i) as [p|] eqn:N; [|intros [q [X _]]; discriminate]. destruct (i_read p) eqn:R; eauto. intros [q [X Y]]. congruence.
Qed.
Lemma fits_nat ps a : match nat_arg a with Some _ => fits ps WNat a | None => ~ fits ps WNat a end.
Proof. unfold nat_arg. destruct a; cbn; auto. destruct (Z.leb_spec 0 z); auto. lia. Qed.
Lemma fits_outstr ps a : fits ps WOutStr a -> exists i p, out_port_ ps a = Some (i, p) /\ i_str p = true.
Proof. destruct a; cbn; try contradiction. intros [p [N [R S1]]]. unfold out_port_, port_of. rewrite N, R. eauto. Qed.
Lemma outstr_fits ps a i p : out_port_ ps a = Some (i, p) -> i_str p = true -> fits ps WOutStr a.
Proof. intros H S1. apply out_port_inv in H as [-> [N R]]. cbn. eauto. Qed.
Lemma not_all ps a x l : ~ all_fit ps ((a, x) :: l) -> fits ps x a -> ~ all_fit ps l.
Proof. intros N F A. apply N. intros b y [E|E]; [injection E as <- <-; auto|apply A; auto]. Qed.
Lemma none_left ps : ~ ~ all_fit ps [].
Proof. intros N. apply N. intros b y []. Qed.
Lemma all_head ps a x l : all_fit ps ((a, x) :: l) -> fits ps x a /\ all_fit ps l.
Proof. intros A. split; [apply A; left; auto|intros b y H; apply A; right; auto]. Qed.

(** A call with an argument that is not as asked raises an error and changes nothing. *)
Theorem C75_refused : forall w o, ~ all_fit (i_ports w) (snd (contract o)) -> fst (istep w o) = w /\ is_error (snd (istep w o)).
Proof.
  intros w o N. destruct o; cbn [contract snd] in N; unfold istep; cbv zeta; try (exfalso; exact (none_left _ N)).
  - destruct name; cbn; auto. exfalso. apply not_all in N; [exact (none_left _ N)|exact Logic.I].
  - destruct name; cbn; auto. exfalso. apply not_all in N; [exact (none_left _ N)|exact Logic.I].
  - destruct s; cbn; auto. exfalso. apply not_all in N; [exact (none_left _ N)|exact Logic.I].
  - assert (F := fits_in (i_ports w) p). destruct (in_port (i_ports w) p); [|cbn; auto]. exfalso. apply not_all in N; [exact (none_left _ N)|auto].
  - assert (F := fits_out (i_ports w) p). destruct (out_port_ (i_ports w) p); [|cbn; auto]. exfalso. apply not_all in N; [exact (none_left _ N)|auto].
  - destruct (out_port_ (i_ports w) p) as [[i q]|] eqn:OP; [|cbn; auto]. destruct (i_str q) eqn:S1; [|cbn; auto]. exfalso. apply not_all in N; [exact (none_left _ N)|]. eapply outstr_fits; eauto.
  - assert (F := fits_in (i_ports w) p). destruct (in_port (i_ports w) p); [|cbn; auto]. exfalso. apply not_all in N; [exact (none_left _ N)|auto].
  - assert (F := fits_in (i_ports w) p). destruct (in_port (i_ports w) p); [|cbn; auto]. exfalso. apply not_all in N; [exact (none_left _ N)|auto].
  - assert (F := fits_in (i_ports w) p). destruct (in_port (i_ports w) p); [|cbn; auto]. exfalso. apply not_all in N; [exact (none_left _ N)|auto].
  - assert (F := fits_out (i_ports w) p). destruct (out_port_ (i_ports w) p); [|cbn; auto]. apply not_all in N; [|auto]. destruct c; cbn; auto. exfalso. apply not_all in N; [exact (none_left _ N)|exact Logic.I].
  - assert (F := fits_out (i_ports w) p). destruct (out_port_ (i_ports w) p); [|cbn; auto]. apply not_all in N; [|auto]. destruct s; cbn; auto. exfalso. apply not_all in N; [exact (none_left _ N)|exact Logic.I].
  - assert (F := fits_out (i_ports w) p). destruct (out_port_ (i_ports w) p); [|cbn; auto]. apply not_all in N; [|auto]. destruct s; try (cbn; auto; fail). apply not_all in N; [|exact Logic.I].
    assert (G := fits_nat (i_ports w) start). destruct (nat_arg start); [|cbn; auto]. exfalso. apply not_all in N; [exact (none_left _ N)|auto].
  - assert (F := fits_out (i_ports w) p). destruct (out_port_ (i_ports w) p); [|cbn; auto]. apply not_all in N; [|auto]. destruct s; try (cbn; auto; fail). apply not_all in N; [|exact Logic.I].
    assert (G := fits_nat (i_ports w) start). destruct (nat_arg start); [|cbn; auto]. apply not_all in N; [|auto].
    assert (G2 := fits_nat (i_ports w) n). destruct (nat_arg n); [|cbn; auto]. exfalso. apply not_all in N; [exact (none_left _ N)|auto].
  - assert (F := fits_out (i_ports w) p). destruct (out_port_ (i_ports w) p); [|cbn; auto]. exfalso. apply not_all in N; [exact (none_left _ N)|auto].
  - destruct c; try (cbn; auto; fail). destruct (out_port_ (i_ports w) p); cbn; auto.
  - assert (F := fits_out (i_ports w) p). destruct (out_port_ (i_ports w) p); [|cbn; auto]. exfalso. apply not_all in N; [exact (none_left _ N)|auto].
Qed.

(** A call with arguments as asked does not complain of an argument. *)
Lemma on_noarg q w f : (forall i p who e g, snd (f i p) <> IArg who e g) -> forall who e g, snd (on q w f) <> IArg who e g.
Proof. intros H who e g. unfold on. destruct (i_open (snd q)); [apply H|discriminate]. Qed.
Lemma get_noarg peek k w i p f : (forall x who e g, f x <> IArg who e g) -> forall who e g, snd (get peek k w i p f) <> IArg who e g.
Proof. intros H who e g. unfold get. destruct (chan_get (i_disk w) k (i_chan p)). apply H. Qed.
Lemma range_noarg w q s a n : forall who e g, snd (put_range w q s a n) <> IArg who e g.
Proof. intros who e g. unfold put_range. destruct (_ <=? _)%Z; [|discriminate]. destruct (_ <=? _)%Z; [|discriminate]. apply on_noarg. discriminate. Qed.
Theorem C75_accepted : forall w o, all_fit (i_ports w) (snd (contract o)) -> forall who e g, snd (istep w o) <> IArg who e g.
Proof.
  intros w o A who e g. destruct o; cbn [contract snd] in A; unfold istep; cbv zeta; try discriminate;
    repeat (apply all_head in A; let F := fresh "F" in destruct A as [F A]).
  - destruct name; cbn in F; try contradiction. destruct (contents (cstr b) (i_disk w)); [|discriminate]. destruct ok; discriminate.
  - destruct name; cbn in F; try contradiction. destruct ok; discriminate.
  - destruct s; cbn in F; try contradiction. discriminate.
  - assert (G := fits_in (i_ports w) p). destruct (in_port (i_ports w) p); [|contradiction]. apply on_noarg. discriminate.
  - assert (G := fits_out (i_ports w) p). destruct (out_port_ (i_ports w) p); [|contradiction]. apply on_noarg. discriminate.
  - destruct (fits_outstr _ _ F) as [i [q [-> ->]]]. apply on_noarg. intros i' p' who' e' g'. destruct (i_chan p') as [s|]; [|discriminate]. destruct (pos s =? 0); [discriminate|]. destruct (fread (pos s) (to_start s)) as [[|] ?]; discriminate.
  - assert (G := fits_in (i_ports w) p). destruct (in_port (i_ports w) p); [|contradiction]. apply on_noarg. intros. apply get_noarg. intros [|]; discriminate.
  - assert (G := fits_in (i_ports w) p). destruct (in_port (i_ports w) p); [|contradiction]. apply on_noarg. intros. apply get_noarg. intros [|]; discriminate.
  - assert (G := fits_in (i_ports w) p). destruct (in_port (i_ports w) p); [|contradiction]. apply on_noarg. intros. apply get_noarg. intros [|]; discriminate.
  - assert (G := fits_out (i_ports w) p). destruct (out_port_ (i_ports w) p); [|contradiction]. destruct c; cbn in F0; try contradiction. apply on_noarg. discriminate.
  - assert (G := fits_out (i_ports w) p). destruct (out_port_ (i_ports w) p); [|contradiction]. destruct s; cbn in F0; try contradiction. apply on_noarg. discriminate.
  - assert (G := fits_out (i_ports w) p). destruct (out_port_ (i_ports w) p); [|contradiction]. destruct s; cbn in F0; try contradiction. assert (G1 := fits_nat (i_ports w) start). destruct (nat_arg start); [|contradiction]. apply range_noarg.
  - assert (G := fits_out (i_ports w) p). destruct (out_port_ (i_ports w) p); [|contradiction]. destruct s; cbn in F0; try contradiction. assert (G1 := fits_nat (i_ports w) start). destruct (nat_arg start); [|contradiction].
    assert (G2 := fits_nat (i_ports w) n). destruct (nat_arg n); [|contradiction]. apply range_noarg.
  - assert (G := fits_out (i_ports w) p). destruct (out_port_ (i_ports w) p); [|contradiction]. apply on_noarg. discriminate.
  - destruct c; cbn in F; try contradiction. assert (G := fits_out (i_ports w) p). destruct (out_port_ (i_ports w) p); [|contradiction]. discriminate.
  - assert (G := fits_out (i_ports w) p). destruct (out_port_ (i_ports w) p); [|contradiction]. apply on_noarg. discriminate.
Qed.

(** The error names the procedure, what was asked and the first wrong argument, but for the
    calls below (the statement without the last premise is C75_reported_refuted). *)
Definition misreported (o : iop) (k : nat) : Prop :=
  match o with
  | OpenInStr _ | CloseIn _ | CloseOut _ | Newline _ => True
  | PutChar _ _ => k = 0
  | PutString4 _ _ _ _ => k = 3
  | _ => False
  end.
Lemma out_none ps a : ~ fits ps WOut a -> out_port_ ps a = None.
Proof. intros N. assert (G := fits_out ps a). destruct (out_port_ ps a); [contradiction|auto]. Qed.
Lemma out_some ps a : fits ps WOut a -> exists q, out_port_ ps a = Some q.
Proof. intros N. assert (G := fits_out ps a). destruct (out_port_ ps a); [eauto|contradiction]. Qed.
Lemma in_none ps a : ~ fits ps WIn a -> in_port ps a = None.
Proof. intros N. assert (G := fits_in ps a). destruct (in_port ps a); [contradiction|auto]. Qed.
Lemma nat_none ps a : ~ fits ps WNat a -> nat_arg a = None.
Proof. intros N. assert (G := fits_nat ps a). destruct (nat_arg a); [contradiction|auto]. Qed.
Lemma nat_some ps a : fits ps WNat a -> exists z, nat_arg a = Some z.
Proof. intros N. assert (G := fits_nat ps a). destruct (nat_arg a); [eauto|contradiction]. Qed.
Lemma str_some ps a : fits ps WStr a -> exists b, a = AStr b.
Proof. destruct a; cbn; try contradiction. eauto. Qed.
Theorem C75_reported_partial : forall w o k a x, first_wrong (i_ports w) (snd (contract o)) k a x -> ~ misreported o k ->
  istep w o = (w, IArg (fst (contract o)) (asked x) a).
Proof.
  intros w o k a x [N [W B]] M. assert (B0 := fun b y L => B 0 b y L). assert (B1 := fun b y L => B 1 b y L). assert (B2 := fun b y L => B 2 b y L). assert (B3 := fun b y L => B 3 b y L).
  destruct o; cbn [contract fst snd misreported nth_error] in *; try contradiction;
    destruct k as [|[|[|[|k]]]]; cbn [nth_error] in N; try discriminate; try (destruct k; discriminate); injection N as <- <-; unfold istep; cbv zeta; cbn [asked].
  - destruct name; try reflexivity. destruct (W Logic.I).
  - destruct name; try reflexivity. destruct (W Logic.I).
  - destruct (out_port_ (i_ports w) p) as [[i q]|] eqn:OP; auto. destruct (i_str q) eqn:S1; auto. destruct W. eapply outstr_fits; eauto.
  - rewrite in_none; auto.
  - rewrite in_none; auto.
  - rewrite in_none; auto.
  - exfalso. auto.
  - destruct (out_some _ _ (B0 _ _ ltac:(lia) eq_refl)) as [q ->]. destruct c; try reflexivity. destruct (W Logic.I).
  - rewrite out_none; auto.
  - destruct (out_some _ _ (B0 _ _ ltac:(lia) eq_refl)) as [q ->]. destruct s; try reflexivity. destruct (W Logic.I).
  - rewrite out_none; auto.
  - destruct (out_some _ _ (B0 _ _ ltac:(lia) eq_refl)) as [q ->]. destruct s; try reflexivity. destruct (W Logic.I).
  - destruct (out_some _ _ (B0 _ _ ltac:(lia) eq_refl)) as [q ->]. destruct (str_some _ _ (B1 _ _ ltac:(lia) eq_refl)) as [b ->]. rewrite (nat_none _ _ W). auto.
  - rewrite out_none; auto.
  - destruct (out_some _ _ (B0 _ _ ltac:(lia) eq_refl)) as [q ->]. destruct s; try reflexivity. destruct (W Logic.I).
  - destruct (out_some _ _ (B0 _ _ ltac:(lia) eq_refl)) as [q ->]. destruct (str_some _ _ (B1 _ _ ltac:(lia) eq_refl)) as [b ->]. rewrite (nat_none _ _ W). auto.
  - exfalso. auto.
  - rewrite out_none; auto.
  - destruct c; try reflexivity. destruct (W Logic.I).
  - destruct c; try (destruct (B0 _ _ ltac:(lia) eq_refl)). rewrite out_none; auto.
Qed.

(** put-string with a range: it is written if it lies in the string. *)
Theorem C75_range_partial : forall w i p b a n, nth_error (i_ports w) i = Some p -> i_read p = false -> i_open p = true -> (0 <= a)%Z -> (0 <= n)%Z ->
  ((a + n <= Z.of_nat (List.length (cstr b)))%Z -> snd (istep w (PutString4 (APort i) (AStr b) (AInt a) (AInt n))) = IVoid) /\
  ((Z.of_nat (List.length (cstr b)) < a + n)%Z -> fst (istep w (PutString4 (APort i) (AStr b) (AInt a) (AInt n))) = w /\ is_error (snd (istep w (PutString4 (APort i) (AStr b) (AInt a) (AInt n))))) /\
  ((a <= Z.of_nat (List.length (cstr b)))%Z -> snd (istep w (PutString3 (APort i) (AStr b) (AInt a))) = IVoid) /\
  ((Z.of_nat (List.length (cstr b)) < a)%Z -> fst (istep w (PutString3 (APort i) (AStr b) (AInt a))) = w /\ is_error (snd (istep w (PutString3 (APort i) (AStr b) (AInt a))))).
Proof.
  intros w i p b a n N R O A0 N0. unfold istep, out_port_, port_of. rewrite N, R. cbn [nat_arg]. destruct (Z.leb_spec 0 a); [|lia]. destruct (Z.leb_spec 0 n); [|lia]. unfold put_range. split; [|split; [|split]]; intros L.
  - destruct (Z.leb_spec a (Z.of_nat (List.length (cstr b)))); [|lia]. destruct (Z.leb_spec (a + n) (Z.of_nat (List.length (cstr b)))); [|lia]. unfold on. cbn [snd fst]. rewrite O. auto.
  - destruct (Z.leb_spec a (Z.of_nat (List.length (cstr b)))); [|cbn; auto]. destruct (Z.leb_spec (a + n) (Z.of_nat (List.length (cstr b)))); [lia|cbn; auto].
  - destruct (Z.leb_spec a (Z.of_nat (List.length (cstr b)))); [|lia]. destruct (Z.leb_spec (a + (Z.of_nat (List.length (cstr b)) - a)) (Z.of_nat (List.length (cstr b)))); [|lia]. unfold on. cbn [snd fst]. rewrite O. auto.
  - destruct (Z.leb_spec a (Z.of_nat (List.length (cstr b)))); [lia|cbn; auto].
Qed.
(** ... but the error is not raise-range-error: it complains of a variable [str]. *)
Theorem C75_range_refuted : forall w i p b a n, nth_error (i_ports w) i = Some p -> i_read p = false -> (0 <= a)%Z -> (0 <= n)%Z -> (Z.of_nat (List.length (cstr b)) < a + n)%Z ->
  istep w (PutString4 (APort i) (AStr b) (AInt a) (AInt n)) = (w, IUnbound "str").
Proof.
  intros w i p b a n N R A0 N0 L. unfold istep, out_port_, port_of. rewrite N, R. cbn [nat_arg]. destruct (Z.leb_spec 0 a); [|lia]. destruct (Z.leb_spec 0 n); [|lia]. unfold put_range.
  destruct (Z.leb_spec a (Z.of_nat (List.length (cstr b)))); [|auto]. destruct (Z.leb_spec (a + n) (Z.of_nat (List.length (cstr b)))); [lia|auto].
Qed.
(** write-char never writes: it refers to a primitive that does not exist. *)
Theorem C75_write_char_refuted : forall w i p c, nth_error (i_ports w) i = Some p -> i_read p = false -> istep w (WriteChar (AChar c) (APort i)) = (w, IUnbound "$write-char").
Proof. intros w i p c N R. unfold istep, out_port_, port_of. rewrite N, R. auto. Qed.
(** Each of the calls left out above reports something else. *)
Theorem C75_reported_refuted :
  (forall w a, ~ fits (i_ports w) WStr a -> istep w (OpenInStr a) = (w, IUnbound "name")) /\
  (forall w a, ~ fits (i_ports w) WIn a -> istep w (CloseIn a) = (w, IArg "close-input-file" "input-port?" a)) /\
  (forall w a, ~ fits (i_ports w) WOut a -> istep w (CloseOut a) = (w, IArg "close-output-file" "output-port?" a)) /\
  (forall w a, ~ fits (i_ports w) WOut a -> istep w (Newline a) = (w, IArg "newline" "output port?" a)) /\
  (forall w a c, ~ fits (i_ports w) WOut a -> istep w (PutChar a c) = (w, IArg "put-char" "output-port?" c)) /\
  (forall w p b a n, fits (i_ports w) WOut p -> fits (i_ports w) WNat a -> ~ fits (i_ports w) WNat n -> istep w (PutString4 p (AStr b) a n) = (w, IArg "put-string" "integer?" a)).
Proof.
  repeat (split; [intros|]).
  - destruct a; auto. destruct (H Logic.I).
  - unfold istep. rewrite in_none; auto.
  - unfold istep. rewrite out_none; auto.
  - unfold istep. rewrite out_none; auto.
  - unfold istep. rewrite out_none; auto.
  - intros w p b a n F G H. unfold istep. destruct (out_some _ _ F) as [q ->]. destruct (nat_some _ _ G) as [z ->]. rewrite (nat_none _ _ H). auto.
Qed.
(** A wrong second argument, all arguments right, a wrong count. *)
Example C75_example :
  let w := fst (istep (IO [] []) OpenOutStr) in
  first_wrong (i_ports w) (snd (contract (PutString (APort 0) (AInt 5)))) 1 (AInt 5) WStr /\ ~ misreported (PutString (APort 0) (AInt 5)) 1 /\
  snd (istep w (PutString (APort 0) (AInt 5))) = IArg "put-string" "string?" (AInt 5) /\
  all_fit (i_ports w) (snd (contract (PutString4 (APort 0) (str "abc") (AInt 1) (AInt 2)))) /\ snd (istep w (PutString4 (APort 0) (str "abc") (AInt 1) (AInt 2))) = IVoid /\
  ~ all_fit (i_ports w) (snd (contract (PutString4 (APort 0) (str "abc") (AInt 1) (AInt (-2))))) /\ snd (istep w (PutString4 (APort 0) (str "abc") (AInt 1) (AInt (-2)))) = IArg "put-string" "integer?" (AInt 1).
Proof.
  cbv zeta. split; [|split; [cbn; tauto|split; [reflexivity|split; [|split; [reflexivity|split; [|reflexivity]]]]]].
  - split; [reflexivity|]. split; [cbn; tauto|]. intros [|j] b y L N; [|lia]. cbn in N. injection N as <- <-. cbn. eauto.
  - intros b y H. cbn in H. repeat (destruct H as [H|H]; [injection H as <- <-; cbn; eauto; lia|]). destruct H.
  - intros A. specialize (A (AInt (-2)) WNat ltac:(cbn; auto)). cbn in A. lia.
Qed.
Print Assumptions C75_refused.
Print Assumptions C75_accepted.
Print Assumptions C75_reported_partial.
Print Assumptions C75_range_partial.
Print Assumptions C75_range_refuted.
Print Assumptions C75_write_char_refuted.
Print Assumptions C75_reported_refuted.
