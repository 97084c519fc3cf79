(** C66: equality and hashing of data with records. *)
From Coq Require Import ZArith NArith Bool Ascii String List Arith Lia.
From Verif Require Import Base Outcome Arith Hashtable Symbol Heap HeapM Equal Records RecordsThm RecEq.
Import ListNotations.
Local Open Scope list_scope.
Local Open Scope nat_scope.
Local Notation "'do' x <- r ; s" := (rbind r (fun x => s)) (at level 60, x pattern, r at level 50, s at level 60).

(** * Specification *)
(** Two lists of one length, related place by place. *)
Definition pointwise (R : val -> val -> Prop) (xs ys : list val) : Prop :=
  List.length xs = List.length ys /\ forall i x y, nth_error xs i = Some x -> nth_error ys i = Some y -> R x y.

Section Spec.
  Variable h : heap.
  (** The equality procedure of a record type, if it has one, and the values that a
      procedure looks at when it is given a record. *)
  Variable eqp_of : val -> option val.
  Variable parts : val -> val -> list val.
  (** The same datum: the same object, strings with the same characters, pairs, vectors,
      boxes with the same contents, or records whose types have the same procedure, which
      finds the same parts in both. *)
  Inductive same : val -> val -> Prop :=
  | SmEq a : same a a
  | SmStr a b s u : cell_of h a = Some (CStr s) -> cell_of h b = Some (CStr u) -> cstr s = cstr u -> same a b
  | SmPair a b a1 d1 a2 d2 : cell_of h a = Some (CPair a1 d1) -> cell_of h b = Some (CPair a2 d2) -> same a1 a2 -> same d1 d2 -> same a b
  | SmVec a b xs ys : cell_of h a = Some (CVec xs) -> cell_of h b = Some (CVec ys) -> List.length xs = List.length ys ->
      (forall i x y, nth_error xs i = Some x -> nth_error ys i = Some y -> same x y) -> same a b
  | SmBox a b x y : cell_of h a = Some (CBox x) -> cell_of h b = Some (CBox y) -> same x y -> same a b
  | SmRec a b ra fa rb fb p : cell_of h a = Some (CRec ra fa) -> cell_of h b = Some (CRec rb fb) -> ra <> VBaseRtd -> rb <> VBaseRtd ->
      eqp_of ra = Some p -> eqp_of rb = Some p -> List.length (parts p a) = List.length (parts p b) ->
      (forall i x y, nth_error (parts p a) i = Some x -> nth_error (parts p b) i = Some y -> same x y) -> same a b.
  (** Data without cycles, of a depth below [n]; hashtables are left out. *)
  Inductive depth : nat -> val -> Prop :=
  | DpAtom n a : match cell_of h a with Some (CPair _ _) | Some (CVec _) | Some (CBox _) | Some (CRec _ _) | Some (CHash _) => False | _ => True end -> depth (S n) a
  | DpPair n a x y : cell_of h a = Some (CPair x y) -> depth n x -> depth n y -> depth (S n) a
  | DpVec n a xs : cell_of h a = Some (CVec xs) -> (forall x, In x xs -> depth n x) -> depth (S n) a
  | DpBox n a x : cell_of h a = Some (CBox x) -> depth n x -> depth (S n) a
  | DpType n a fs : cell_of h a = Some (CRec VBaseRtd fs) -> depth (S n) a
  | DpPlain n a r fs : cell_of h a = Some (CRec r fs) -> r <> VBaseRtd -> eqp_of r = None -> depth (S n) a
  | DpRec n a r fs p : cell_of h a = Some (CRec r fs) -> r <> VBaseRtd -> eqp_of r = Some p -> (forall x, In x (parts p a) -> depth n x) -> depth (S n) a.
End Spec.
(** A procedure for equality that compares, with the equal? that it is given, the parts
    of one record with those of the other. *)
Definition compares (apply3 : val -> val -> val -> (val -> val -> rres bool) -> rres bool) (parts : val -> val -> list val) (p : val) : Prop :=
  forall a b rec, apply3 p a b rec = if List.length (parts p a) =? List.length (parts p b) then all_r rec (parts p a) (parts p b) else ROk false.
(** A procedure for hashing that computes its answer from the hashes of some parts. *)
Fixpoint hashes (rec : val -> rres Z) (xs : list val) : rres (list Z) :=
  match xs with [] => ROk [] | x :: r => do z <- rec x; do l <- hashes rec r; ROk (z :: l) end.
Definition combines (apply2 : val -> val -> (val -> rres Z) -> rres Z) (hparts : val -> val -> list val) (comb : val -> list Z -> Z) (q : val) : Prop :=
  forall x rec, apply2 q x rec = do l <- hashes rec (hparts q x); ROk (comb q l).
(** [q] looks at nothing but what [p] compares. *)
Definition looks (parts hparts : val -> val -> list val) (p q : val) : Prop :=
  forall (R : val -> val -> Prop) a b, pointwise R (parts p a) (parts p b) -> pointwise R (hparts q a) (hparts q b).

(** * Lemmas *)
Section Same.
  Variable h : heap.
  Variable e : val -> option val.
  Variable parts : val -> val -> list val.
  Notation same := (same h e parts).
  Lemma same_sym a b : same a b -> same b a.
  Proof.
    induction 1 as [a|a b s u A B E|a b a1 d1 a2 d2 A B _ I1 _ I2|a b xs ys A B L _ IH|a b x y A B _ IH|a b ra fa rb fb p A B NA NB EA EB L _ IH].
    - constructor.
    - eapply SmStr; eauto.
    - eapply SmPair; eauto.
    - eapply SmVec; eauto.
    - eapply SmBox; eauto.
    - eapply SmRec; eauto.
  Qed.
  Lemma same_trans a b : same a b -> forall c, same b c -> same a c.
  Proof.
    induction 1 as [a|a b s u A B E|a b a1 d1 a2 d2 A B S1 I1 S2 I2|a b xs ys A B L SS IH|a b x y A B S1 IH|a b ra fa rb fb p A B NA NB EA EB L SS IH]; intros c H.
    - exact H.
    - inversion H; subst; [eapply SmStr; eauto| | | | | ]; try congruence.
      match goal with X : cell_of h b = Some (CStr _), Y : cell_of h b = Some (CStr _) |- _ => rewrite X in Y; injection Y as -> end.
      eapply SmStr; eauto. congruence.
    - inversion H as [|? ? ? ? P| ? ? ? ? ? ? P Q R1 R2 | ? ? ? ? P| ? ? ? ? P| ? ? ? ? ? ? ? P]; subst; try congruence; [eapply SmPair; eauto|].
      rewrite B in P. injection P as -> ->. eapply SmPair; eauto.
    - inversion H as [|? ? ? ? P| ? ? ? ? ? ? P | ? ? ? ? P Q L2 R| ? ? ? ? P| ? ? ? ? ? ? ? P]; subst; try congruence; [eapply SmVec; eauto|].
      rewrite B in P. injection P as ->. eapply SmVec; eauto; [congruence|].
      intros i x z X Z. destruct (nth_error xs0 i) as [y|] eqn:Y; [eauto|].
      apply nth_error_None in Y. assert (i < List.length xs) by (apply nth_error_Some; congruence). lia.
    - inversion H as [|? ? ? ? P| ? ? ? ? ? ? P | ? ? ? ? P| ? ? ? ? P Q R| ? ? ? ? ? ? ? P]; subst; try congruence; [eapply SmBox; eauto|].
      rewrite B in P. injection P as ->. eapply SmBox; eauto.
    - inversion H as [|? ? ? ? P| ? ? ? ? ? ? P | ? ? ? ? P| ? ? ? ? P| ? ? ? fb' rc fc p' P Q N1 N2 E1 E2 L2 R]; subst; try congruence; [eapply SmRec; eauto|].
      rewrite B in P. injection P as <- <-. rewrite EB in E1. injection E1 as <-. eapply SmRec; eauto; [congruence|].
      intros i x z X Z. destruct (nth_error (parts p b) i) as [y|] eqn:Y; [eauto|].
      apply nth_error_None in Y. assert (i < List.length (parts p a)) by (apply nth_error_Some; congruence). lia.
  Qed.
  Lemma all_r_ok (eq : val -> val -> rres bool) : forall xs ys, List.length xs = List.length ys ->
    (forall x y, In x xs -> exists r, eq x y = ROk r /\ (r = true <-> same x y)) ->
    exists r, all_r eq xs ys = ROk r /\ (r = true <-> forall i x y, nth_error xs i = Some x -> nth_error ys i = Some y -> same x y).
  Proof.
    induction xs as [|x xs IH]; intros [|y ys] L H; try discriminate.
    - exists true. split; [reflexivity|]. split; [intros _ [|]; discriminate|reflexivity].
    - cbn [all_r]. destruct (H x y (or_introl eq_refl)) as [r [-> R]]. cbn [rbind]. destruct r.
      + destruct (IH ys) as [r [-> R2]]; [cbn in L; lia|intros; apply H; now right|]. exists r. split; [reflexivity|]. rewrite R2. split.
        * intros X [|i] u w U W; [injection U as <-; injection W as <-; now apply R|eauto].
        * intros X i u w U W. exact (X (S i) u w U W).
      + exists false. split; [reflexivity|]. split; [discriminate|]. intros X. apply R. exact (X 0 x y eq_refl eq_refl).
  Qed.
End Same.

Section World.
  Variable h : heap.
  Variable t : tabs.
  Variable apply3 : val -> val -> val -> (val -> val -> rres bool) -> rres bool.
  Variable apply2 : val -> val -> (val -> rres Z) -> rres Z.
  Variable ext_equal : nat -> nat -> rres bool.
  Variable ext_hash : nat -> rres Z.
  Variable address : val -> N.
  Variable parts : val -> val -> list val.
  Variable G : good h.
  Notation same := (same h (tab_equal t) parts).
  Notation depth := (depth h (tab_equal t) parts).
  Notation equal_r := (equal_r h t no_defaults apply3 ext_equal).

  Lemma cell_rec a r fs : cell_of h a = Some (CRec r fs) -> exists l, a = VPtr l /\ nth_error h l = Some (CRec r fs).
  Proof. destruct a; try discriminate; cbn; eauto. Qed.
  Lemma rec_types a r fs : cell_of h a = Some (CRec r fs) -> r <> VBaseRtd -> rtdp h r = true /\ rec_rtd h a = Some r /\ record_valuep h a = true.
  Proof.
    intros C N. destruct (cell_rec _ _ _ C) as [l [-> E]]. destruct G as [_ G2]. destruct (G2 _ _ _ E N) as [p [n [k [D _]]]].
    destruct (descr_length _ _ _ _ D) as [_ [_ R]]. split; [exact R|]. unfold rec_rtd, record_valuep, rec_at. rewrite E. split; [reflexivity|].
    destruct (eqp r VBaseRtd) eqn:X; [apply eqp_eq in X; contradiction|reflexivity].
  Qed.
  Lemma valuep_inv b : record_valuep h b = true -> exists r fs, cell_of h b = Some (CRec r fs) /\ r <> VBaseRtd.
  Proof.
    unfold record_valuep, rec_at. destruct b; try discriminate. cbn. destruct (nth_error h l) as [[]|]; try discriminate. intros E. eexists _, _. split; [reflexivity|].
    intros ->. rewrite eqp_refl in E. discriminate.
  Qed.
  Hypothesis C : forall r p, tab_equal t r = Some p -> compares apply3 parts p.

  Lemma equal_c_other f a b : eqp a b = false -> match cell_of h a with Some (CPair _ _) | Some (CVec _) | Some (CBox _) | Some (CStr _) => False | _ => True end ->
    equal_c (S f) h a b = Some false.
  Proof. intros E M. cbn [equal_c]. rewrite E. destruct (cell_of h a) as [[]|]; try contradiction; auto; destruct (cell_of h b); auto. Qed.
  Lemma neq_of a b : eqp a b = false -> a <> b.
  Proof. intros E ->. rewrite eqp_refl in E. discriminate. Qed.
  Lemma not_same a b : eqp a b = false -> match cell_of h a with Some (CPair _ _) | Some (CVec _) | Some (CBox _) | Some (CStr _) | Some (CRec _ _) => False | _ => True end -> ~ same a b.
  Proof.
    intros E M H. apply neq_of in E. inversion H; subst; try contradiction;
      match goal with X : cell_of h a = _ |- _ => rewrite X in M end; contradiction.
  Qed.
  Lemma equal_r_ok : forall n a, depth n a -> forall b fuel, n < fuel -> exists r, equal_r fuel a b = ROk r /\ (r = true <-> same a b).
  Proof.
    induction 1 as [n a M|n a x y A _ I1 _ I2|n a xs A _ IH|n a x A _ IH|n a fs A|n a r fs A NB E0|n a r fs p A NB E0 _ IH]; intros b [|fuel] LT; try lia;
      cbn [RecEq.equal_r]; (destruct (eqp a b) eqn:E; [apply eqp_eq in E as ->; exists true; split; [reflexivity|split; [constructor|reflexivity]]|]).
    - destruct (cell_of h a) as [c|] eqn:A.
      + destruct c as [?|?|s|?|?|?|? ?|?]; try contradiction; destruct fuel as [|fuel]; try lia.
        * cbn [equal_c]. rewrite E, A. destruct (cell_of h b) as [[?|?|u|?|?|?|?|?]|] eqn:B; cbn [of_option];
            try (exists false; split; [reflexivity|]; split; [discriminate|]; intros X; inversion X; subst; try congruence; try (apply neq_of in E; contradiction)).
          exists (bytes_eqb (cstr s) (cstr u)). split; [reflexivity|]. rewrite bytes_eqb_spec. split; [intros Q; eapply SmStr; eauto|].
          intros X; inversion X; subst; try congruence.
        * rewrite equal_c_other by (try rewrite A; auto). exists false. split; [reflexivity|]. split; [discriminate|]. intros X. exfalso. revert X. apply not_same; [exact E|]. rewrite A. exact Logic.I.
        * rewrite equal_c_other by (try rewrite A; auto). exists false. split; [reflexivity|]. split; [discriminate|]. intros X. exfalso. revert X. apply not_same; [exact E|]. rewrite A. exact Logic.I.
      + destruct fuel as [|fuel]; try lia. rewrite equal_c_other by (try rewrite A; auto). exists false. split; [reflexivity|]. split; [discriminate|]. intros X. exfalso. revert X. apply not_same; [exact E|]. rewrite A. exact Logic.I.
    - rewrite A. destruct (cell_of h b) as [[a2 d2|?|?|?|?|?|?|?]|] eqn:B;
        try (exists false; split; [reflexivity|]; split; [discriminate|]; intros X; inversion X; subst; try congruence; try (apply neq_of in E; contradiction)).
      destruct (I1 a2 fuel) as [r1 [-> R1]]; [lia|]. cbn [rbind]. destruct r1.
      + destruct (I2 d2 fuel) as [r2 [-> R2]]; [lia|]. exists r2. split; [reflexivity|]. rewrite R2. split.
        * intros X. eapply SmPair; eauto. now apply R1.
        * intros X. inversion X; subst; try congruence; try (apply neq_of in E; contradiction).
      + exists false. split; [reflexivity|]. split; [discriminate|]. intros X. apply R1. inversion X; subst; try congruence; try (apply neq_of in E; contradiction).
    - rewrite A. destruct (cell_of h b) as [[?|ys|?|?|?|?|?|?]|] eqn:B;
        try (exists false; split; [reflexivity|]; split; [discriminate|]; intros X; inversion X; subst; try congruence; try (apply neq_of in E; contradiction)).
      destruct (Nat.eqb_spec (List.length xs) (List.length ys)) as [L|L].
      + destruct (all_r_ok h (tab_equal t) parts (equal_r fuel) xs ys L) as [r [-> R]]; [intros x y I; apply IH; [exact I|lia]|].
        exists r. split; [reflexivity|]. rewrite R. split; [intros X; eapply SmVec; eauto|].
        intros X. inversion X; subst; try congruence; [apply neq_of in E; contradiction|].
        match goal with Y : cell_of h a = Some (CVec _), Z : cell_of h b = Some (CVec _) |- _ => rewrite A in Y; rewrite B in Z; injection Y as <-; injection Z as <- end. assumption.
      + exists false. split; [reflexivity|]. split; [discriminate|]. intros X. exfalso. inversion X; subst; try congruence; try (apply neq_of in E; contradiction).
    - rewrite A. destruct (cell_of h b) as [[?|?|?|y|?|?|?|?]|] eqn:B;
        try (exists false; split; [reflexivity|]; split; [discriminate|]; intros X; inversion X; subst; try congruence; try (apply neq_of in E; contradiction)).
      destruct (IH y fuel) as [r [-> R]]; [lia|]. exists r. split; [reflexivity|]. rewrite R. split; [intros X; eapply SmBox; eauto|].
      intros X; inversion X; subst; try congruence; try (apply neq_of in E; contradiction).
    - rewrite A. destruct (cell_rec _ _ _ A) as [l [-> N]]. unfold record_valuep at 1, rec_at. rewrite N. change (negb (eqp VBaseRtd VBaseRtd)) with false. cbv iota.
      destruct fuel as [|fuel]; try lia. rewrite equal_c_other by (try rewrite A; auto). exists false. split; [reflexivity|]. split; [discriminate|].
      intros X. exfalso. inversion X; subst; try congruence; try (apply neq_of in E; contradiction).
    - rewrite A. destruct (rec_types _ _ _ A NB) as [T [RR V]]. rewrite V. destruct (record_valuep h b) eqn:VB.
      + destruct (valuep_inv _ VB) as [rb [fb [B NBB]]]. destruct (rec_types _ _ _ B NBB) as [TB [RB _]]. unfold record_equal_procedure. rewrite V, VB, RR, RB. cbn [need rbind].
        unfold tab_ref. rewrite T, E0. cbn [rbind default_equal d_equal no_defaults]. destruct fuel as [|fuel]; try lia. rewrite equal_c_other by (try rewrite A; auto).
        exists false. split; [reflexivity|]. split; [discriminate|]. intros X. exfalso. inversion X; subst; try congruence; try (apply neq_of in E; contradiction).
      + exists false. split; [reflexivity|]. split; [discriminate|]. intros X. exfalso. inversion X; subst; try congruence; try (apply neq_of in E; contradiction).
    - rewrite A. destruct (rec_types _ _ _ A NB) as [T [RR V]]. rewrite V. destruct (record_valuep h b) eqn:VB.
      + destruct (valuep_inv _ VB) as [rb [fb [B NBB]]]. destruct (rec_types _ _ _ B NBB) as [TB [RB _]]. unfold record_equal_procedure. rewrite V, VB, RR, RB. cbn [need rbind].
        unfold tab_ref. rewrite T, E0. cbn [rbind default_equal d_equal no_defaults]. rewrite TB. cbn [rbind].
        destruct fuel as [|fuel]; try lia.
        assert (NO : tab_equal t rb <> Some p -> exists r0, of_option (equal_c (S fuel) h a b) = ROk r0 /\ (r0 = true <-> same a b)).
        { intros NE. rewrite equal_c_other by (try rewrite A; auto). exists false. split; [reflexivity|]. split; [discriminate|].
          intros X. exfalso. inversion X; subst; try congruence; try (apply neq_of in E; contradiction). }
        destruct (tab_equal t rb) as [q|] eqn:EB; [|apply NO; discriminate].
        destruct (eqp p q) eqn:PQ; cbn [rbind]; [|apply NO; intros X; injection X as ->; rewrite eqp_refl in PQ; discriminate].
        apply eqp_eq in PQ as <-. rewrite (C _ _ E0). destruct (Nat.eqb_spec (List.length (parts p a)) (List.length (parts p b))) as [L|L].
        * destruct (all_r_ok h (tab_equal t) parts (equal_r (S fuel)) _ _ L) as [r0 [Q R]]; [intros x y I; apply IH; [exact I|lia]|].
          rewrite Q. exists r0. split; [reflexivity|]. rewrite R. split; [intros X; eapply SmRec; eauto|].
          intros X. inversion X; subst; try congruence; [apply neq_of in E; contradiction|].
          match goal with Y : cell_of h a = Some (CRec _ _), Z : tab_equal t ra = Some _ |- _ => rewrite A in Y; injection Y as <- <-; rewrite E0 in Z; injection Z as <- end. assumption.
        * exists false. split; [reflexivity|]. split; [discriminate|]. intros X. exfalso. inversion X; subst; try congruence; try (apply neq_of in E; contradiction).
      + exists false. split; [reflexivity|]. split; [discriminate|]. intros X. exfalso. inversion X as [| | | | |? ? ? ? rb fb ? ? B ? N2]; subst; try congruence.
        destruct (rec_types _ _ _ B N2) as [_ [_ V2]]. congruence.
  Qed.
End World.

Section Hashing.
  Variable h : heap.
  Variable t : tabs.
  Variable apply2 : val -> val -> (val -> rres Z) -> rres Z.
  Variable ext_hash : nat -> rres Z.
  Variable address : val -> N.
  Variables parts hparts : val -> val -> list val.
  Variable comb : val -> list Z -> Z.
  Variable G : good h.
  Notation same := (same h (tab_equal t) parts).
  Notation hash_r := (hash_r h t no_defaults apply2 ext_hash address).
  Hypothesis H : forall ra rb p, tab_equal t ra = Some p -> tab_equal t rb = Some p ->
    exists q, tab_hash t ra = Some q /\ tab_hash t rb = Some q /\ combines apply2 hparts comb q /\ looks parts hparts p q.

  Lemma hashes_same rec : forall xs ys, pointwise (fun x y => rec x = rec y) xs ys -> hashes rec xs = hashes rec ys.
  Proof.
    induction xs as [|x xs IH]; intros [|y ys] [L P]; try discriminate; [reflexivity|]. cbn [hashes]. rewrite (P 0 x y eq_refl eq_refl).
    rewrite (IH ys); [reflexivity|]. split; [now injection L|]. intros i u w U W. exact (P (S i) u w U W).
  Qed.
  Lemma hash_all_same rec : forall xs ys hc, pointwise (fun x y => forall hc, rec x hc = rec y hc) xs ys -> hash_all_r rec xs hc = hash_all_r rec ys hc.
  Proof.
    induction xs as [|x xs IH]; intros [|y ys] hc [L P]; try discriminate; [reflexivity|]. cbn [hash_all_r]. rewrite (P 0 x y eq_refl eq_refl hc).
    destruct (rec y hc); cbn [rbind]; auto. apply IH. split; [now injection L|]. intros i u w U W. exact (P (S i) u w U W).
  Qed.
  Lemma hash_cell x c : cell_of h x = Some c -> match x with VSym _ | VGensym _ _ => False | _ => True end.
  Proof. destruct x; cbn; auto; discriminate. Qed.
  Lemma hash_same a b : same a b -> forall fuel hc, hash_r fuel a hc = hash_r fuel b hc.
  Proof.
    induction 1 as [a|a b s u A B E|a b a1 d1 a2 d2 A B _ I1 _ I2|a b xs ys A B L _ IH|a b x y A B _ IH|a b ra fa rb fb p A B NA NB EA EB L _ IH]; intros [|fuel] hc; try reflexivity.
    - cbn [RecEq.hash_r]. rewrite A, B. assert (X := hash_cell _ _ A). assert (Y := hash_cell _ _ B). unfold name_hash. rewrite E.
      destruct a, b; try contradiction; reflexivity.
    - cbn [RecEq.hash_r]. rewrite A, B. assert (X := hash_cell _ _ A). assert (Y := hash_cell _ _ B). rewrite I1.
      assert (Z : (do hc' <- hash_r fuel a2 hc; hash_r fuel d1 hc') = (do hc' <- hash_r fuel a2 hc; hash_r fuel d2 hc')) by (destruct (hash_r fuel a2 hc); cbn [rbind]; auto).
      rewrite Z. destruct a, b; try contradiction; reflexivity.
    - cbn [RecEq.hash_r]. rewrite A, B. assert (X := hash_cell _ _ A). assert (Y := hash_cell _ _ B). rewrite (hash_all_same (hash_r fuel) xs ys).
      + destruct a, b; try contradiction; reflexivity.
      + split; [exact L|]. intros i x y U W hc'. eapply IH; eauto.
    - cbn [RecEq.hash_r]. rewrite A, B. assert (X := hash_cell _ _ A). assert (Y := hash_cell _ _ B).
      assert (Z : (do hc' <- add_r hc; hash_r fuel x hc') = (do hc' <- add_r hc; hash_r fuel y hc')) by (destruct (add_r hc); cbn [rbind]; auto).
      rewrite Z. destruct a, b; try contradiction; reflexivity.
    - cbn [RecEq.hash_r]. rewrite A, B. destruct (cell_rec _ _ _ _ A) as [l [-> _]]. destruct (cell_rec _ _ _ _ B) as [m [-> _]].
      destruct (rec_types _ G _ _ _ A NA) as [T1 [R1 V1]]. destruct (rec_types _ G _ _ _ B NB) as [T2 [R2 V2]].
      destruct (H ra rb p EA EB) as [q [Q1 [Q2 [CB LK]]]].
      rewrite V1, V2. unfold record_hash_procedure. rewrite V1, V2, R1, R2. cbn [need rbind]. unfold tab_ref. rewrite T1, T2, Q1, Q2. cbn [rbind].
      rewrite !CB. f_equal. apply hashes_same. apply LK. split; [exact L|]. intros i x y U W. eapply IH; eauto.
  Qed.
End Hashing.

(** * Which procedure a type has *)
Section History.
  Variable procs : val -> bool.
  Definition the_tab (k : nat) (t : tabs) : val -> option val := match k with 0 => tab_equal t | 1 => tab_hash t | _ => tab_writer t end.
  (** The last procedure that a history installs for [r] ([k]: 0 equality, 1 hashing). *)
  Fixpoint last_installed (k : nat) (r : val) (ops : list rop) (x : option val) : option val :=
    match ops with
    | [] => x
    | RTab k' r' p :: q => last_installed k r q (if (k =? k') && eqp r r' && procs p then Some p else x)
    | _ :: q => last_installed k r q x
    end.
  Definition tabs_ok (w : rworld) : Prop :=
    forall k r p, k < 2 -> the_tab k (rw_tabs w) r = Some p -> rtdp (rw_heap w) r = true /\ procs p = true.
  Lemma rtdp_kept h H r : rkept h H -> rtdp h r = true -> rtdp H r = true.
  Proof.
    intros K. unfold rtdp, rec_at. destruct r; try discriminate. destruct (nth_error h l) as [[]|] eqn:E; try discriminate.
    intros X. destruct (K _ _ _ E) as [fs' [-> _]]. exact X.
  Qed.
  Lemma rtdp_new h c r : rtdp (h ++ [c]) r = true -> rtdp h r = true \/ r = VPtr (List.length h).
  Proof.
    unfold rtdp, rec_at. destruct r; try discriminate. destruct (Nat.lt_ge_cases l (List.length h)) as [L|L].
    - rewrite nth_error_app1 by exact L. auto.
    - rewrite nth_error_app2 by exact L. destruct (l - List.length h) as [|m] eqn:E; [intros _; right; f_equal; lia|]. destruct m; discriminate.
  Qed.
  Lemma rtdp_bound h r : rtdp h r = true -> r <> VPtr (List.length h).
  Proof. intros X ->. unfold rtdp, rec_at in X. assert (E : nth_error h (List.length h) = None) by (apply nth_error_None; lia). rewrite E in X. discriminate. Qed.
  Lemma tput_same (f : val -> option val) r p : tput f r p r = Some p.
  Proof. unfold tput. now rewrite eqp_refl. Qed.
  Lemma tput_other (f : val -> option val) r p x : x <> r -> tput f r p x = f x.
  Proof. intros N. unfold tput. destruct (eqp x r) eqn:E; [apply eqp_eq in E; contradiction|reflexivity]. Qed.

  (** Defining a type: the procedures of the parent at that moment, or none. *)
  Lemma type_step w name parent uid sealed opaque fields c w' : good (rw_heap w) -> tabs_ok w ->
    rstep procs w (RType name parent uid sealed opaque fields) = (ROk c, w') ->
    c = VPtr (List.length (rw_heap w)) /\ forall k, k < 2 ->
      the_tab k (rw_tabs w') c = (if truthy parent then the_tab k (rw_tabs w) parent else None) /\
      forall r, r <> c -> the_tab k (rw_tabs w') r = the_tab k (rw_tabs w) r.
  Proof.
    intros G T. destruct w as [h t]. unfold rstep, make_rtd. cbn [rw_heap rw_tabs]. 
    assert (NEW : forall k, k < 2 -> the_tab k t (VPtr (List.length h)) = None).
    { intros k L. destruct (the_tab k t (VPtr (List.length h))) eqn:X; [|reflexivity]. destruct (T k _ _ L X) as [R _]. cbn [rw_heap] in R. apply rtdp_bound in R. congruence. }
    destruct (truthy parent) eqn:TP.
    - unfold tab_ref. destruct (rtdp h parent) eqn:RP; [|discriminate]. cbn [rbind].
      set (cell := CRec VBaseRtd _). assert (RN : rtdp (h ++ [cell]) (VPtr (List.length h)) = true).
      { unfold rtdp, rec_at. rewrite nth_error_app2 by lia. rewrite Nat.sub_diag. reflexivity. }
      assert (PE := T 0 parent). assert (PH := T 1 parent). cbn [the_tab rw_tabs] in PE, PH.
      assert (N0 := NEW 0 ltac:(lia)). assert (N1 := NEW 1 ltac:(lia)). cbn [the_tab] in N0, N1.
      destruct (tab_equal t parent) as [pe|] eqn:EE; [destruct (PE pe ltac:(lia) eq_refl) as [_ P1]|];
      (destruct (tab_hash t parent) as [ph|] eqn:EH; [destruct (PH ph ltac:(lia) eq_refl) as [_ P2]|]);
      unfold tab_set; rewrite ?RN, ?P1, ?P2; cbn [rbind];
      (destruct (tab_writer t parent) as [pw|]; [destruct (rtdp h pw); [|discriminate]|]); cbn [rbind]; intros X; injection X as <- <-; (split; [reflexivity|]);
      intros [|[|k]] L; try lia; cbn [the_tab rw_tabs tab_equal tab_hash]; rewrite ?EE, ?EH, ?tput_same, ?N0, ?N1; (split; [reflexivity|]); intros r NR; rewrite ?tput_other by exact NR; reflexivity.
    - intros X. injection X as <- <-. split; [reflexivity|]. intros k L. split; [now apply NEW|reflexivity].
  Qed.
  Lemma tab_step w k0 r0 p0 : 
    (exists u, rstep procs w (RTab k0 r0 p0) = (ROk u, RW (rw_heap w) (let t := rw_tabs w in match k0 with 0 => Tabs (tput (tab_equal t) r0 p0) (tab_hash t) (tab_writer t) | 1 => Tabs (tab_equal t) (tput (tab_hash t) r0 p0) (tab_writer t) | _ => Tabs (tab_equal t) (tab_hash t) (tput (tab_writer t) r0 p0) end))
       /\ rtdp (rw_heap w) r0 = true /\ procs p0 = true)
    \/ (snd (rstep procs w (RTab k0 r0 p0)) = w /\ (rtdp (rw_heap w) r0 = false \/ procs p0 = false)).
  Proof.
    destruct w as [h t]. unfold rstep, tab_set. cbn [rw_heap rw_tabs]. destruct (rtdp h r0); [|right; auto]. destruct (procs p0); [|right; auto].
    left. exists VVoid. split; [|auto]. destruct k0 as [|[|k0]]; reflexivity.
  Qed.
  Lemma other_step w o : (forall n p u s q f, o <> RType n p u s q f) -> (forall k r p, o <> RTab k r p) -> rw_tabs (snd (rstep procs w o)) = rw_tabs w.
  Proof.
    intros N1 N2. destruct w as [h t], o as [n p u s q fs|r args|r i v|r i v x|r v|k r p|c]; try (exfalso; eapply N1; reflexivity); try (exfalso; eapply N2; reflexivity); unfold rstep; cbn [rw_heap rw_tabs].
    - destruct (record_construct _ h r args) as [[]| | |]; reflexivity.
    - reflexivity.
    - destruct (record_put _ h r i v x); reflexivity.
    - reflexivity.
    - destruct (is_record c); reflexivity.
  Qed.
  Lemma tabs_step w o : good (rw_heap w) -> tabs_ok w -> tabs_ok (snd (rstep procs w o)).
  Proof.
    intros G T. destruct (step_kept procs w o G) as [G1 K]. 
    destruct o as [n p u s q fs|r args|r i v|r i v x|r v|k0 r0 p0|c].
    2,3,4,5,7: intros k r1 p1 L; rewrite other_step by (intros; discriminate); intros X; destruct (T k r1 p1 L X) as [A B]; split; [eapply rtdp_kept; eassumption|exact B].
    - destruct (rstep procs w (RType n p u s q fs)) as [res w'] eqn:E. destruct res as [c|e| |].
      + destruct (type_step _ _ _ _ _ _ _ _ _ G T E) as [-> TS]. cbn [snd] in *. intros k r1 p1 L X. destruct (TS k L) as [TS1 TS2].
        destruct (eqp r1 (VPtr (List.length (rw_heap w)))) eqn:EQ.
        * apply eqp_eq in EQ as ->. rewrite TS1 in X. destruct (truthy p); [|discriminate]. destruct (T k _ _ L X) as [_ B]. split; [|exact B].
          destruct w as [h t]. unfold rstep, make_rtd in E. cbn [rw_heap rw_tabs] in E. cbn [rw_heap].
          assert (RN : rtdp (h ++ [CRec VBaseRtd (n :: p :: u :: s :: q :: VFalse :: fs)]) (VPtr (List.length h)) = true).
          { unfold rtdp, rec_at. rewrite nth_error_app2 by lia. rewrite Nat.sub_diag. reflexivity. }
          assert (W : rw_heap w' = h ++ [CRec VBaseRtd (n :: p :: u :: s :: q :: VFalse :: fs)]).
          { revert E. repeat match goal with |- context[match rbind ?a _ with _ => _ end] => destruct a; cbn [rbind]; try discriminate | |- context [if truthy p then _ else _] => destruct (truthy p) end; intros E; injection E as <-; reflexivity. }
          rewrite W. exact RN.
        * rewrite TS2 in X by (intros ->; rewrite eqp_refl in EQ; discriminate). destruct (T k _ _ L X) as [A B]. split; [eapply rtdp_kept; eassumption|exact B].
      + assert (snd (rstep procs w (RType n p u s q fs)) = w) as X by (unfold rstep in *; destruct (make_rtd procs (rw_heap w) (rw_tabs w) n p u s q fs) as [[[]]| | |]; try discriminate; reflexivity). rewrite E in X. cbn [snd] in X. subst w'. exact T.
      + assert (snd (rstep procs w (RType n p u s q fs)) = w) as X by (unfold rstep in *; destruct (make_rtd procs (rw_heap w) (rw_tabs w) n p u s q fs) as [[[]]| | |]; try discriminate; reflexivity). rewrite E in X. cbn [snd] in X. subst w'. exact T.
      + assert (snd (rstep procs w (RType n p u s q fs)) = w) as X by (unfold rstep in *; destruct (make_rtd procs (rw_heap w) (rw_tabs w) n p u s q fs) as [[[]]| | |]; try discriminate; reflexivity). rewrite E in X. cbn [snd] in X. subst w'. exact T.
    - destruct (tab_step w k0 r0 p0) as [[v [E [R P]]]|[E _]]; [rewrite E|rewrite E; exact T]. cbn [snd]. intros k r1 p1 L X.
      assert (Y : (r1 = r0 /\ p1 = p0) \/ the_tab k (rw_tabs w) r1 = Some p1).
      { destruct (eqp r1 r0) eqn:EQ.
        - apply eqp_eq in EQ as ->. destruct k0 as [|[|k0]], k as [|[|k]]; try lia; cbn [the_tab rw_tabs tab_equal tab_hash] in X |- *; rewrite ?tput_same in X; auto; injection X as <-; auto.
        - right. assert (N : r1 <> r0) by (intros ->; rewrite eqp_refl in EQ; discriminate).
          destruct k0 as [|[|k0]], k as [|[|k]]; try lia; cbn [the_tab rw_tabs tab_equal tab_hash] in X |- *; rewrite ?tput_other in X by exact N; auto. }
      cbn [rw_heap]. destruct Y as [[-> ->]|Y]; [auto|]. exact (T k r1 p1 L Y).
  Qed.
  Lemma tabs_run ops : forall w, good (rw_heap w) -> tabs_ok w -> good (rw_heap (snd (rrun procs w ops))) /\ tabs_ok (snd (rrun procs w ops)).
  Proof.
    induction ops as [|o q IH]; intros w G T; [auto|]. rewrite rrun_cons. destruct (step_kept procs w o G) as [G1 _]. apply IH; [exact G1|now apply tabs_step].
  Qed.
  Lemma reachable_tabs w : reachable procs w -> good (rw_heap w) /\ tabs_ok w.
  Proof. intros [ops ->]. apply tabs_run; [split; cbn; intros [|]; discriminate|]. intros [|[|k]] r p L; try lia; discriminate. Qed.

  (** In every history the procedure of a type is the last one installed for it. *)
  Theorem C66_installed w r k : reachable procs w -> rtdp (rw_heap w) r = true -> k < 2 ->
    forall ops, the_tab k (rw_tabs (snd (rrun procs w ops))) r = last_installed k r ops (the_tab k (rw_tabs w) r).
  Proof.
    intros RE R L ops. destruct (reachable_tabs w RE) as [G T]. clear RE. revert w G T R. induction ops as [|o q IH]; intros w G T R; [reflexivity|].
    rewrite rrun_cons. destruct (step_kept procs w o G) as [G1 K1]. assert (T1 := tabs_step w o G T). assert (R1 := rtdp_kept _ _ _ K1 R). rewrite IH by assumption. clear IH.
    destruct o as [n p u s q0 fs|r0 args|r0 i v|r0 i v x|r0 v|k0 r0 p0|c]; cbn [last_installed].
    2,3,4,5,7: rewrite other_step by (intros; discriminate); reflexivity.
    - f_equal. destruct (rstep procs w (RType n p u s q0 fs)) as [res w'] eqn:E. destruct res as [c|e| |].
      + destruct (type_step _ _ _ _ _ _ _ _ _ G T E) as [-> TS]. cbn [snd]. apply TS; [exact L|]. now apply rtdp_bound.
      + assert (snd (rstep procs w (RType n p u s q0 fs)) = w) as X by (unfold rstep in *; destruct (make_rtd procs (rw_heap w) (rw_tabs w) n p u s q0 fs) as [[[]]| | |]; try discriminate; reflexivity). rewrite E in X. cbn [snd] in *. now subst w'.
      + assert (snd (rstep procs w (RType n p u s q0 fs)) = w) as X by (unfold rstep in *; destruct (make_rtd procs (rw_heap w) (rw_tabs w) n p u s q0 fs) as [[[]]| | |]; try discriminate; reflexivity). rewrite E in X. cbn [snd] in *. now subst w'.
      + assert (snd (rstep procs w (RType n p u s q0 fs)) = w) as X by (unfold rstep in *; destruct (make_rtd procs (rw_heap w) (rw_tabs w) n p u s q0 fs) as [[[]]| | |]; try discriminate; reflexivity). rewrite E in X. cbn [snd] in *. now subst w'.
    - f_equal. destruct (tab_step w k0 r0 p0) as [[v [E [R0 P]]]|[E NR]]; rewrite E.
      + cbn [snd rw_tabs]. rewrite P, andb_true_r. destruct (eqp r r0) eqn:EQ.
        * apply eqp_eq in EQ as <-. rewrite andb_true_r. destruct k0 as [|[|k0]], k as [|[|k]]; try lia; cbn [the_tab tab_equal tab_hash Nat.eqb]; now rewrite ?tput_same.
        * rewrite andb_false_r. assert (N : r <> r0) by (intros ->; rewrite eqp_refl in EQ; discriminate).
          destruct k0 as [|[|k0]], k as [|[|k]]; try lia; cbn [the_tab tab_equal tab_hash]; now rewrite ?tput_other by exact N.
      + destruct NR as [NR|NR]; [|rewrite NR, andb_false_r; reflexivity]. destruct (eqp r r0) eqn:EQ; [apply eqp_eq in EQ as <-; congruence|]. now rewrite andb_false_r.
  Qed.
  (** A new type has the procedures that its parent has at that moment; a type without
      parent has none. *)
  Theorem C66_inherited w name parent uid sealed opaque fields c w' : reachable procs w ->
    rstep procs w (RType name parent uid sealed opaque fields) = (ROk c, w') -> forall k, k < 2 ->
    (parent <> VFalse -> the_tab k (rw_tabs w') c = the_tab k (rw_tabs w) parent) /\ (parent = VFalse -> the_tab k (rw_tabs w') c = None).
  Proof.
    intros RE E k L. destruct (reachable_tabs w RE) as [G T]. destruct (type_step _ _ _ _ _ _ _ _ _ G T E) as [_ TS]. destruct (TS k L) as [-> _].
    split; [intros N; destruct parent; auto; contradiction|intros ->; reflexivity].
  Qed.
End History.

(** * Theorems *)
Section Theorems.
  Variable procs : val -> bool.
  Variable w : rworld.
  Variable apply3 : val -> val -> val -> (val -> val -> rres bool) -> rres bool.
  Variable apply2 : val -> val -> (val -> rres Z) -> rres Z.
  Variable ext_equal : nat -> nat -> rres bool.
  Variable ext_hash : nat -> rres Z.
  Variable address : val -> N.
  Variables parts hparts : val -> val -> list val.
  Variable comb : val -> list Z -> Z.
  Hypothesis R : reachable procs w.
  Hypothesis C : forall r p, tab_equal (rw_tabs w) r = Some p -> compares apply3 parts p.
  Notation same := (same (rw_heap w) (tab_equal (rw_tabs w)) parts).
  Notation depth := (depth (rw_heap w) (tab_equal (rw_tabs w)) parts).
  Notation equal := (equal_r (rw_heap w) (rw_tabs w) no_defaults apply3 ext_equal).
  Notation hash := (equal_hash_r (rw_heap w) (rw_tabs w) no_defaults apply2 ext_hash address).

  (** equal? answers, and the answer is #t exactly for the same data. *)
  Theorem C66_equal_decides_partial n a b fuel : depth n a -> n < fuel -> exists r, equal fuel a b = ROk r /\ (r = true <-> same a b).
  Proof. intros D L. apply (equal_r_ok _ _ _ _ _ (reachable_good _ _ R) C n); assumption. Qed.
  (** equal? is an equivalence. *)
  Theorem C66_equivalence_partial n a b c fuel : depth n a -> depth n b -> n < fuel ->
    equal fuel a a = ROk true /\ equal fuel b a = equal fuel a b /\
    (equal fuel a b = ROk true -> equal fuel b c = ROk true -> equal fuel a c = ROk true).
  Proof.
    intros A B L. destruct (C66_equal_decides_partial n a a fuel A L) as [r1 [E1 H1]]. destruct (C66_equal_decides_partial n a b fuel A L) as [r2 [E2 H2]].
    destruct (C66_equal_decides_partial n b a fuel B L) as [r3 [E3 H3]]. destruct (C66_equal_decides_partial n b c fuel B L) as [r4 [E4 H4]].
    destruct (C66_equal_decides_partial n a c fuel A L) as [r5 [E5 H5]]. rewrite E1, E2, E3, E4, E5. split; [|split].
    - f_equal. apply H1. constructor.
    - f_equal. assert (r2 = true <-> r3 = true) by (rewrite H2, H3; split; apply same_sym). destruct r2, r3; intuition.
    - intros X Y. injection X as ->. injection Y as ->. f_equal. apply H5. eapply same_trans; [apply H2|apply H4]; reflexivity.
  Qed.
  (** equal? data have the same hash. *)
  Theorem C66_hash_partial n a b fuel :
    (forall ra rb p, tab_equal (rw_tabs w) ra = Some p -> tab_equal (rw_tabs w) rb = Some p ->
       exists q, tab_hash (rw_tabs w) ra = Some q /\ tab_hash (rw_tabs w) rb = Some q /\ combines apply2 hparts comb q /\ looks parts hparts p q) ->
    depth n a -> n < fuel -> equal fuel a b = ROk true -> forall f, hash f a = hash f b.
  Proof.
    intros H D L E f. destruct (C66_equal_decides_partial n a b fuel D L) as [r [E1 H1]]. rewrite E in E1. injection E1 as <-.
    apply (hash_same _ _ _ _ _ parts hparts comb (reachable_good _ _ R) H). now apply H1.
  Qed.
  (** Records whose types do not share a procedure are equal only to themselves. *)
  Theorem C66_different_procedures a b ra rb fa fb fuel : record_of (rw_heap w) a ra fa -> record_of (rw_heap w) b rb fb -> a <> b ->
    (tab_equal (rw_tabs w) ra = None \/ tab_equal (rw_tabs w) ra <> tab_equal (rw_tabs w) rb) -> 1 < fuel -> equal fuel a b = ROk false.
  Proof.
    intros [la [-> [NA BA]]] [lb [-> [NB BB]]] NE D L. destruct fuel as [|[|fuel]]; try lia.
    assert (G := reachable_good _ _ R).
    assert (A : cell_of (rw_heap w) (VPtr la) = Some (CRec ra fa)) by exact NA. assert (B : cell_of (rw_heap w) (VPtr lb) = Some (CRec rb fb)) by exact NB.
    destruct (rec_types _ G _ _ _ A BA) as [T1 [R1 V1]]. destruct (rec_types _ G _ _ _ B BB) as [T2 [R2 V2]].
    assert (E : eqp (VPtr la) (VPtr lb) = false) by (destruct (eqp (VPtr la) (VPtr lb)) eqn:E; [apply eqp_eq in E; contradiction|reflexivity]).
    cbn [equal_r]. rewrite E, A, V1, V2. unfold record_equal_procedure. rewrite V1, V2, R1, R2. cbn [need rbind]. unfold tab_ref. rewrite T1, T2. cbn [rbind].
    destruct (tab_equal (rw_tabs w) ra) as [p|].
    - destruct (tab_equal (rw_tabs w) rb) as [q|]; cbn [rbind default_equal no_defaults d_equal].
      + destruct (eqp p q) eqn:PQ; [apply eqp_eq in PQ as ->; destruct D as [D|D]; congruence|]. cbn [rbind]. rewrite equal_c_other by (try rewrite A; auto). reflexivity.
      + rewrite equal_c_other by (try rewrite A; auto). reflexivity.
    - cbn [rbind default_equal no_defaults d_equal]. rewrite equal_c_other by (try rewrite A; auto). reflexivity.
  Qed.
  (** With a default equality procedure, equal-hash of a record whose type has no hash
      procedure calls that equality procedure, with a record and equal-hash; the default
      hash procedure is not used. *)
  Theorem C66_default_hash_refuted ds x r fs fuel : record_of (rw_heap w) x r fs -> tab_hash (rw_tabs w) r = None ->
    equal_hash_r (rw_heap w) (rw_tabs w) ds apply2 ext_hash address (S fuel) x =
    match d_equal ds with
    | Some p => apply2 p x (equal_hash_r (rw_heap w) (rw_tabs w) ds apply2 ext_hash address fuel)
    | None => ROk (Z.of_N (eq_hash address x))
    end.
  Proof.
    intros [l [-> [N B]]] E. assert (G := reachable_good _ _ R). assert (A : cell_of (rw_heap w) (VPtr l) = Some (CRec r fs)) by exact N.
    destruct (rec_types _ G _ _ _ A B) as [T1 [R1 V1]]. unfold equal_hash_r at 1. cbn [hash_r]. rewrite A, V1. unfold record_hash_procedure. rewrite V1, R1. cbn [need rbind]. unfold tab_ref. rewrite T1, E. reflexivity.
  Qed.
End Theorems.

(** * Cases *)
Definition field_at (h : heap) (v : val) (i : nat) : val := match rec_at h v with Some (_, fs) => nth i fs VVoid | None => VVoid end.
Definition compare_parts (parts : val -> val -> list val) (p a b : val) (rec : val -> val -> rres bool) : rres bool :=
  if List.length (parts p a) =? List.length (parts p b) then all_r rec (parts p a) (parts p b) else ROk false.
Definition combine_parts (hparts : val -> val -> list val) (comb : val -> list Z -> Z) (q x : val) (rec : val -> rres Z) : rres Z :=
  do l <- hashes rec (hparts q x); ROk (comb q l).
(** A type [point] with procedures for equality (object 2) and hashing (object 3), then a
    type derived from it, a type of its own, some records and a pair. *)
Definition point_ops : list rop :=
  [RType (VSym (s2b "point")) VFalse VFalse VFalse VFalse [VNull; VNull]; RElse (CStr (s2b "ab")); RElse (COther 1); RElse (COther 2);
   RTab 0 (VPtr 0) (VPtr 2); RTab 1 (VPtr 0) (VPtr 3);
   RType (VSym (s2b "point3")) (VPtr 0) VFalse VFalse VFalse [VNull]; RType (VSym (s2b "other")) VFalse VFalse VFalse VFalse [VNull; VNull];
   RElse (CStr (s2b "ab")); RMake (VPtr 0) [VFix 1; VPtr 1]; RMake (VPtr 4) [VFix 1; VPtr 6; VFix 9]; RMake (VPtr 5) [VFix 5; VPtr 1]; RMake (VPtr 0) [VFix 1; VFix 7];
   RElse (CPair (VPtr 7) VNull); RElse (CPair (VPtr 8) VNull)].
Definition point_procs (v : val) : bool := match v with VPtr 2 | VPtr 3 => true | _ => false end.
Definition point_world : rworld := snd (rrun point_procs rworld0 point_ops).
Definition point_parts (p a : val) : list val := [field_at (rw_heap point_world) a 0; field_at (rw_heap point_world) a 1].
Definition point_comb (q : val) (l : list Z) : Z := fold_left Z.add l 0%Z.
Example C66_ex_point :
  reachable point_procs point_world /\
  (forall r p, tab_equal (rw_tabs point_world) r = Some p -> compares (compare_parts point_parts) point_parts p) /\
  (forall ra rb p, tab_equal (rw_tabs point_world) ra = Some p -> tab_equal (rw_tabs point_world) rb = Some p ->
     exists q, tab_hash (rw_tabs point_world) ra = Some q /\ tab_hash (rw_tabs point_world) rb = Some q /\
       combines (combine_parts point_parts point_comb) point_parts point_comb q /\ looks point_parts point_parts p q) /\
  depth (rw_heap point_world) (tab_equal (rw_tabs point_world)) point_parts 3 (VPtr 11) /\
  equal_r (rw_heap point_world) (rw_tabs point_world) no_defaults (compare_parts point_parts) (fun _ _ => RUndef) 4 (VPtr 11) (VPtr 12) = ROk true /\
  equal_r (rw_heap point_world) (rw_tabs point_world) no_defaults (compare_parts point_parts) (fun _ _ => RUndef) 4 (VPtr 7) (VPtr 10) = ROk false /\
  (exists z, equal_hash_r (rw_heap point_world) (rw_tabs point_world) no_defaults (combine_parts point_parts point_comb) (fun _ => RUndef) (fun _ => 0%N) 4 (VPtr 11) = ROk z).
Proof.
  split; [exists point_ops; reflexivity|]. split; [intros r p _ a b rec; reflexivity|]. split.
  { intros ra rb p A B. exists (VPtr 3).
    assert (X : forall r p, tab_equal (rw_tabs point_world) r = Some p -> tab_hash (rw_tabs point_world) r = Some (VPtr 3)).
    { intros r p0. change (tab_equal (rw_tabs point_world)) with (tput (tput (fun _ => None) (VPtr 0) (VPtr 2)) (VPtr 4) (VPtr 2)).
      change (tab_hash (rw_tabs point_world)) with (tput (tput (fun _ => None) (VPtr 0) (VPtr 3)) (VPtr 4) (VPtr 3)). unfold tput.
      destruct (eqp r (VPtr 4)); [reflexivity|]. destruct (eqp r (VPtr 0)); [reflexivity|discriminate]. }
    split; [eauto|]. split; [eauto|]. split; [intros x rec; reflexivity|]. intros Rel a b H. exact H. }
  split.
  { eapply DpPair; [reflexivity| |].
    - eapply DpRec; [reflexivity|discriminate|reflexivity|]. intros x [<-|[<-|[]]]; apply DpAtom; exact Logic.I.
    - apply DpAtom. exact Logic.I. }
  split; [vm_compute; reflexivity|]. split; [vm_compute; reflexivity|]. eexists. vm_compute. reflexivity.
Qed.
(** With a default procedure equal? is not transitive, although every procedure compares
    one field. *)
Definition one_part (p a : val) : list val := [field_at (rw_heap point_world) a (match p with VPtr 2 => 0 | _ => 1 end)].
Theorem C66_default_transitivity_refuted :
  reachable point_procs point_world /\ (forall p, compares (compare_parts one_part) one_part p) /\
  let equal := equal_r (rw_heap point_world) (rw_tabs point_world) (Defaults (Some (VPtr 3)) None) (compare_parts one_part) (fun _ _ => RUndef) 9 in
  equal (VPtr 10) (VPtr 7) = ROk true /\ equal (VPtr 7) (VPtr 9) = ROk true /\ equal (VPtr 10) (VPtr 9) = ROk false.
Proof. split; [exists point_ops; reflexivity|]. split; [intros p a b rec; reflexivity|]. vm_compute. auto. Qed.
(** The history of the example. *)
Example C66_ex_history : the_tab 0 (rw_tabs point_world) (VPtr 4) = Some (VPtr 2) /\ the_tab 1 (rw_tabs point_world) (VPtr 5) = None.
Proof. vm_compute. auto. Qed.

Print Assumptions C66_installed.
Print Assumptions C66_inherited.
Print Assumptions C66_equal_decides_partial.
Print Assumptions C66_equivalence_partial.
Print Assumptions C66_hash_partial.
Print Assumptions C66_different_procedures.
Print Assumptions C66_default_hash_refuted.
Print Assumptions C66_default_transitivity_refuted.
