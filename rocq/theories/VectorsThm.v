(** C18: vectors (and boxes), and the vector conversions of C17.

    [vec_at h v = Some xs]: [v] is a vector with elements [xs] in heap [h].
    "Acts inside the vector or raises without touching anything else" is: the
    result is never [HUndef], an error leaves the heap as it was, and a write
    changes only the cell of the vector itself. *)
From Coq Require Import ZArith NArith Bool Ascii String List Lia.
From Verif Require Import Base Outcome Arith Heap HeapM Equal Lists ListsProofs Vectors.
Import ListNotations.
Local Open Scope Z_scope.
Local Open Scope nat_scope.

Lemma upd_nth_length {A} i (x : A) l : length (upd_nth i x l) = length l.
Proof. revert i; induction l; destruct i; simpl; auto. Qed.
Lemma upd_nth_eq {A} i (x : A) l : i < length l -> nth_error (upd_nth i x l) i = Some x.
Proof. revert i; induction l; destruct i; simpl; intros; try lia; auto. apply IHl; lia. Qed.
Lemma upd_nth_ne {A} i j (x : A) l : i <> j -> nth_error (upd_nth i x l) j = nth_error l j.
Proof. revert i j; induction l; destruct i, j; simpl; intros; auto; try congruence. Qed.

Lemma vec_at_ptr h v xs : vec_at h v = Some xs -> v = VEmptyVec /\ xs = [] \/ exists l, v = VPtr l /\ nth_error h l = Some (CVec xs).
Proof.
  unfold vec_at, cell_of. destruct v; try discriminate.
  - intros [= <-]; auto.
  - destruct (nth_error h l) as [[]|] eqn:E; try discriminate. intros [= <-]. eauto.
Qed.
Lemma vec_at_nth h l xs : nth_error h l = Some (CVec xs) -> vec_at h (VPtr l) = Some xs.
Proof. unfold vec_at, cell_of. now intros ->. Qed.

(** Two heaps that agree except possibly at the cell of [v]. *)
Definition only_changes (v : val) (h h' : heap) : Prop :=
  length h' = length h /\ forall l, v <> VPtr l -> nth_error h' l = nth_error h l.

(** [vector-ref], for every value given as vector and as index. *)
Theorem C18_vector_ref v i h :
  p_vector_ref v i h =
  match vec_at h v with
  | None => HErr (EArg "vector-ref" v) h
  | Some xs =>
      match i with
      | VFix z => if (z <? 0)%Z then HErr (EArg "vector-ref" i) h
                  else match nth_error xs (Z.to_nat z) with
                       | Some x => HOk x h
                       | None => HErr (EArg "raise-range-error" v) h
                       end
      | _ => HErr (EArg "vector-ref" i) h
      end
  end.
Proof.
  unfold p_vector_ref, if_vec, vectorp, if_index. destruct (vec_at h v) as [xs|] eqn:E; auto.
  destruct i; auto. destruct (Z.leb_spec 0 z).
  - replace (z <? 0)%Z with false by (symmetry; apply Z.ltb_ge; auto).
    unfold bind, c_vector_length. rewrite E. destruct (Z.leb_spec (Z.of_nat (length xs)) z).
    + replace (nth_error xs (Z.to_nat z)) with (@None val); [reflexivity|].
      symmetry. apply nth_error_None. lia.
    + unfold c_vector_ref. rewrite E. replace (0 <=? z)%Z with true by (symmetry; apply Z.leb_le; auto).
      destruct (nth_error xs (Z.to_nat z)) eqn:E2; auto. apply nth_error_None in E2. lia.
  - replace (z <? 0)%Z with true by (symmetry; apply Z.ltb_lt; auto). reflexivity.
Qed.

(** [vector-set!], for every value given as vector and as index: it stores inside
    the vector, or raises and changes nothing. *)
Theorem C18_vector_set v i x h :
  match p_vector_set v i x h with
  | HOk r h' =>
      r = VVoid /\ only_changes v h h' /\
      exists xs ys z, i = VFix z /\ (0 <= z < Z.of_nat (length xs))%Z /\
        vec_at h v = Some xs /\ vec_at h' v = Some ys /\ length ys = length xs /\
        nth_error ys (Z.to_nat z) = Some x /\
        (forall j, j <> Z.to_nat z -> nth_error ys j = nth_error xs j)
  | HErr e h' =>
      h' = h /\
      ((vec_at h v = None /\ e = EArg "vector-set!" v) \/
       (exists xs, vec_at h v = Some xs /\
         ((forall z, i = VFix z -> (z < 0)%Z) /\ e = EArg "vector-set!" i \/
          exists z, i = VFix z /\ (Z.of_nat (length xs) <= z)%Z /\ e = EArg "raise-range-error" v)))
  | HUndef | HFuel => False
  end.
Proof.
  unfold p_vector_set, if_vec, vectorp, if_index. destruct (vec_at h v) as [xs|] eqn:E; [|auto].
  destruct i; try (split; [reflexivity|]; right; exists xs; split; [reflexivity|]; left; split; [discriminate|reflexivity]).
  destruct (Z.leb_spec 0 z) as [Hz|Hz].
  2:{ split; [reflexivity|]. right. exists xs. split; auto. left. split; auto. intros ? [= <-]; auto. }
  unfold bind, c_vector_length. rewrite E. destruct (Z.leb_spec (Z.of_nat (length xs)) z) as [Hl|Hl].
  { split; [reflexivity|]. right. exists xs. split; auto. right. eauto. }
  unfold c_vector_set. rewrite E.
  replace ((0 <=? z) && (z <? Z.of_nat (length xs)))%Z with true
    by (symmetry; rewrite andb_true_iff, Z.leb_le, Z.ltb_lt; auto).
  destruct (vec_at_ptr _ _ _ E) as [[-> ->]|(l & -> & En)]; [simpl in Hl; lia|].
  cbn [put_vec ret]. split; auto.
  assert (Hlen : l < length h) by (apply nth_error_Some; congruence).
  split.
  - split; [apply upd_cell_length|]. intros m Hm. apply upd_cell_ne. congruence.
  - exists xs, (upd_nth (Z.to_nat z) x xs), z. repeat split; auto.
    + apply vec_at_nth. apply upd_cell_eq; exact Hlen.
    + apply upd_nth_length.
    + apply upd_nth_eq. lia.
    + intros. apply upd_nth_ne; auto.
Qed.

(** The array laws, through the API alone. *)
Theorem C18_ref_after_set v i x h r h' :
  p_vector_set v i x h = HOk r h' ->
  p_vector_ref v i h' = HOk x h' /\
  (forall j, j <> i -> forall y, p_vector_ref v j h' = HOk y h' <-> p_vector_ref v j h = HOk y h) /\
  (exists n, p_vector_length v h = HOk n h /\ p_vector_length v h' = HOk n h').
Proof.
  intros H. pose proof (C18_vector_set v i x h) as S. rewrite H in S.
  destruct S as (_ & _ & xs & ys & z & -> & Hz & E & E' & HL & Hx & Hj). split; [|split].
  - rewrite C18_vector_ref, E'. replace (z <? 0)%Z with false by (symmetry; apply Z.ltb_ge; lia).
    now rewrite Hx.
  - intros j Hne y. rewrite !C18_vector_ref, E, E'. destruct j; try (split; discriminate).
    destruct (Z.ltb_spec z0 0); [split; discriminate|]. rewrite Hj.
    + destruct (nth_error xs (Z.to_nat z0)); split; congruence.
    + intros C. apply Hne. f_equal. lia.
  - exists (VFix (Z.of_nat (length xs))). unfold p_vector_length, if_vec, vectorp, bind, c_vector_length.
    rewrite E, E', HL. auto.
Qed.

(** [vector-length] is total on vectors, an error elsewhere. *)
Theorem C18_vector_length v h :
  p_vector_length v h = match vec_at h v with
                        | Some xs => HOk (VFix (Z.of_nat (length xs))) h
                        | None => HErr (EArg "vector-length" v) h
                        end.
Proof.
  unfold p_vector_length, if_vec, vectorp, bind, c_vector_length. destruct (vec_at h v); auto.
Qed.

Theorem C18_vector_fill v x h :
  match p_vector_fill v x h with
  | HOk _ h' => only_changes v h h' /\ exists xs, vec_at h v = Some xs /\ vec_at h' v = Some (repeat x (length xs))
  | HErr _ h' => h' = h /\ vec_at h v = None
  | HUndef | HFuel => False
  end.
Proof.
  unfold p_vector_fill, if_vec, vectorp. destruct (vec_at h v) as [xs|] eqn:E; [|auto].
  unfold bind, c_vector_fill. rewrite E.
  destruct (vec_at_ptr _ _ _ E) as [[-> ->]|(l & -> & En)]; cbn [put_vec ret].
  - split; [split; auto|]. exists []; auto.
  - assert (Hlen : l < length h) by (apply nth_error_Some; congruence).
    split; [split; [apply upd_cell_length|]; intros m Hm; apply upd_cell_ne; congruence|].
    exists xs. split; auto. apply vec_at_nth. now apply upd_cell_eq.
Qed.

(** Finding: the error of [vector-fill!] names another procedure. *)
Theorem C18_vector_fill_name_refuted v x h : vec_at h v = None -> p_vector_fill v x h = HErr (EArg "vector->list" v) h.
Proof. intros E. unfold p_vector_fill, if_vec, vectorp. rewrite E. reflexivity. Qed.

(** [vector] and [make-vector] give a fresh vector with the elements asked for,
    as long as the size in bytes is less than 2^64. *)
Theorem C18_vector args h :
  exists r h', p_vector args h = HOk r h' /\ extends h h' /\ vec_at h' r = Some args /\ vec_at h r = None.
Proof.
  exists (VPtr (length h)), (h ++ [CVec args]). split; [auto|]. split; [apply extends_snoc|].
  split; [apply vec_at_nth, nth_snoc_new|]. unfold vec_at, cell_of.
  replace (nth_error h (length h)) with (@None cell); auto. symmetry; apply nth_error_None; auto.
Qed.
Theorem C18_make_vector_partial n fill h : (0 <= n < 2 ^ 61 - 2)%Z ->
  exists r h', p_make_vector (VFix n) fill h = HOk r h' /\ extends h h' /\ vec_at h r = None /\
    vec_at h' r = Some (repeat (match fill with Some v => v | None => VFix 0 end) (Z.to_nat n)).
Proof.
  intros Hn. unfold p_make_vector, if_index. replace (0 <=? n)%Z with true by (symmetry; apply Z.leb_le; lia).
  unfold c_make_vector. replace (vec_size_ok n) with true.
  2:{ symmetry. unfold vec_size_ok. apply Z.ltb_lt.
      change (2 ^ 64)%Z with (8 * 2 ^ 61)%Z. remember (2 ^ 61)%Z as P. lia. }
  edestruct C18_vector as (r & h' & E & X & V & N). exists r, h'. split; [exact E|]. auto.
Qed.
(** Above that the size wraps around and the initialisation runs outside the
    object. *)
Theorem C18_make_vector_refuted : exists n, (0 <= n < 2 ^ 63)%Z /\ forall fill h, p_make_vector (VFix n) fill h = HUndef.
Proof.
  exists (2 ^ 61)%Z. split; [split; [apply Z.leb_le|apply Z.ltb_lt]; reflexivity|]. intros fill h. unfold p_make_vector, if_index.
  replace (0 <=? 2 ^ 61)%Z with true by reflexivity. unfold c_make_vector.
  replace (vec_size_ok (2 ^ 61)) with false by reflexivity. reflexivity.
Qed.
(** Anything else is an error and nothing happens. *)
Theorem C18_make_vector_rejects n fill h : (forall z, n = VFix z -> (z < 0)%Z) ->
  p_make_vector n fill h = HErr (EArg "make-vector" n) h.
Proof.
  intros H. unfold p_make_vector, if_index. destruct n; auto. specialize (H z eq_refl).
  replace (0 <=? z)%Z with false by (symmetry; apply Z.leb_gt; auto). auto.
Qed.

(** [list->vector] and [vector->list] (C17). *)
Lemma take_list_ok xs h v : list_at h v xs -> take_list (length xs) v h = HOk xs h.
Proof.
  revert v; induction xs as [|x xs IH]; intros v Hl; auto.
  destruct (list_at_cons_inv _ _ _ _ Hl) as (l & d & -> & E & Hd & P). cbn [take_list length].
  st P. st P. erewrite bind_ok by (apply IH; auto). reflexivity.
Qed.
Theorem C17_list_to_vector xs h v fuel : list_at h v xs -> length xs <= fuel ->
  exists r h', p_list_to_vector fuel v h = HOk r h' /\ extends h h' /\ vec_at h' r = Some xs /\ vec_at h r = None.
Proof.
  intros Hl Hf. unfold p_list_to_vector, m_listp.
  erewrite bind_ok by (rewrite (listp_ok _ _ _ _ Hl Hf); reflexivity). cbv iota. unfold c_list_to_vector.
  erewrite bind_ok by (eapply list_length_ok; eauto). rewrite Z.add_0_l, Nat2Z.id.
  erewrite bind_ok by (apply take_list_ok; auto). apply (C18_vector xs h).
Qed.
Lemma vec_to_list_ok xs : forall i h v tl, i <= length xs -> list_at h v tl ->
  exists r h', vec_to_list_loop xs i v h = HOk r h' /\ extends h h' /\ list_at h' r (firstn i xs ++ tl).
Proof.
  induction i as [|i IH]; intros h v tl Hi Hl.
  - exists v, h. split; auto. split; auto using extends_refl.
  - cbn [vec_to_list_loop]. destruct (nth_error xs i) as [x|] eqn:E; [|apply nth_error_None in E; lia].
    stc. destruct (IH (h ++ [CPair x v]) (VPtr (length h)) (x :: tl)) as (r & h' & Er & X & L); [lia|now apply list_at_new|].
    exists r, h'. split; [exact Er|]. split; [eapply extends_trans; eauto using extends_snoc|].
    assert (F : firstn (S i) xs = firstn i xs ++ [x]).
    { clear - E. revert i E; induction xs as [|a xs IH]; intros [|i] E; simpl in *; try discriminate; [congruence|].
      f_equal. now apply IH. }
    rewrite F, <- app_assoc. exact L.
Qed.
Theorem C17_vector_to_list v h :
  match vec_at h v with
  | Some xs => exists r h', p_vector_to_list v h = HOk r h' /\ extends h h' /\ list_at h' r xs
  | None => p_vector_to_list v h = HErr (EArg "vector->list" v) h
  end.
Proof.
  unfold p_vector_to_list, if_vec, vectorp. destruct (vec_at h v) as [xs|] eqn:E; auto.
  unfold c_vector_to_list. rewrite E.
  destruct (vec_to_list_ok xs (length xs) h VNull [] (le_n _) ltac:(constructor)) as (r & h' & Er & X & L).
  rewrite firstn_all, app_nil_r in L. eauto.
Qed.

(** Boxes behave as one-element arrays. *)
Theorem C18_boxes h :
  (forall x, exists b h', p_box x h = HOk b h' /\ extends h h' /\ p_unbox b h' = HOk x h' /\
     forall y, p_unbox b h <> HOk y h) /\
  (forall b x r h', p_set_box b x h = HOk r h' ->
     p_unbox b h' = HOk x h' /\ only_changes b h h' /\ exists y, p_unbox b h = HOk y h) /\
  (forall b x, p_set_box b x h = HErr (EArg "set-box!" b) h <-> p_unbox b h = HErr (EArg "unbox" b) h).
Proof.
  split; [|split].
  - intros x. exists (VPtr (length h)), (h ++ [CBox x]). split; [auto|]. split; [apply extends_snoc|].
    unfold p_unbox, box_at, cell_of. rewrite nth_snoc_new. split; auto.
    replace (nth_error h (length h)) with (@None cell); [discriminate|]. symmetry; apply nth_error_None; auto.
  - intros b x r h'. unfold p_set_box, p_unbox, box_at, cell_of. destruct b; try discriminate.
    destruct (nth_error h l) as [[]|] eqn:E; try discriminate. intros [= <- <-].
    assert (Hlen : l < length h) by (apply nth_error_Some; congruence).
    rewrite upd_cell_eq by auto. split; auto. split; eauto.
    split; [apply upd_cell_length|]. intros m Hm. apply upd_cell_ne. congruence.
  - intros b x. unfold p_set_box, p_unbox, box_at, cell_of.
    destruct b; try (split; reflexivity); try (split; discriminate).
    destruct (nth_error h l) as [[]|]; split; try reflexivity; discriminate.
Qed.

(** ** Concrete instances *)
Definition vh : heap := [CVec [VFix 1; VFix 2; VFix 3]; CBox VNull].
Example set_ok : p_vector_set (VPtr 0) (VFix 2) VTrue vh = HOk VVoid [CVec [VFix 1; VFix 2; VTrue]; CBox VNull].
Proof. reflexivity. Qed.
Example set_out : p_vector_set (VPtr 0) (VFix 3) VTrue vh = HErr (EArg "raise-range-error" (VPtr 0)) vh.
Proof. reflexivity. Qed.
Example set_neg : p_vector_set (VPtr 0) (VFix (-1)) VTrue vh = HErr (EArg "vector-set!" (VFix (-1))) vh.
Proof. reflexivity. Qed.
Example to_list : exists r h', p_vector_to_list (VPtr 0) vh = HOk r h' /\ list_at h' r [VFix 1; VFix 2; VFix 3].
Proof. eexists _, _. split; [reflexivity|]. repeat (econstructor; [reflexivity|]). constructor. Qed.
Print Assumptions C18_vector_ref.
Print Assumptions C18_vector_set.
Print Assumptions C18_ref_after_set.
Print Assumptions C18_vector_length.
Print Assumptions C18_vector_fill.
Print Assumptions C18_vector.
Print Assumptions C18_make_vector_partial.
Print Assumptions C18_make_vector_refuted.
Print Assumptions C18_make_vector_rejects.
Print Assumptions C17_list_to_vector.
Print Assumptions C17_vector_to_list.
Print Assumptions C18_boxes.
Print Assumptions C18_vector_fill_name_refuted.
