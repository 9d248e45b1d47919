(** C114: what the String methods show. *)
From Coq Require Import String Ascii.
From Verif Require Import BaseLemmas Nodes Spec Trace Spec_List Spec_BSet Spec_String Model_DList Model_DListQueue Model_BuiltinSet Model_String.
From Verif Require Import Proof_BuiltinSet Props_BuiltinSet Proof_String.

(** *** DList and DListQueue: the type only *)
Theorem C114_lists : forall T tname name, names_type tname name ->
  (forall s : list (dnode T) * dlist, DList_String tname s = (Ok ("DList[" ++ name ++ "]")%string, s)) /\
  (forall s : list (dnode T) * dqueue, DListQueue_String tname s = (Ok ("Queue[" ++ name ++ "]")%string, s)).
Proof. intros T tname name ->. now split. Qed.
Print Assumptions C114_lists.
(** Documented ("String convert the list to string"): the text tells what is in
    the list.  [read] is any way of reading it; DListOf makes the list. *)
Definition C114_expected_list_text : Prop :=
  forall T (zero : T) tname name, names_type tname name -> exists read : string -> list T,
  forall vs txt s, (DListOf zero vs ;; DList_String tname) ([], empty_dlist) = (Ok txt, s) -> read txt = vs.
Theorem C114_refuted_list_text : ~ C114_expected_list_text.
Proof.
  intros H. destruct (H Z 0 "*int"%string "int"%string eq_refl) as (read & R).
  pose proof (R [] "DList[int]"%string ([], empty_dlist) eq_refl) as E1.
  assert (E2 : read "DList[int]"%string = [7]). { eapply R. vm_compute. reflexivity. }
  congruence.
Qed.
Print Assumptions C114_refuted_list_text.

(** *** BuiltinSet: the type, and every element once *)
Section Set_.
Context {K St : Type} (eqb : K -> K -> bool) (pick : K -> K -> K).
(** The text of set s after the calls ops, the range loop in order o. *)
Definition set_text (tname : string) (show : K -> string) (ops : list (bop K St)) (s : sref) (o : list nat) : outcome string :=
  fst (BuiltinSet_String tname show s o (bset_after eqb pick ops)).
(** Whether x is in set s after ops. *)
Definition in_set (ops : list (bop K St)) (s : sref) (x : K) : bool := holds eqb (bset_after eqb pick ops) s x.
End Set_.
Lemma set_string {K St} (eqb : K -> K -> bool) pick : key_eq eqb -> key_refl eqb -> picks_one pick ->
  forall (ops : list (bop K St)) s o tname name show, refs_ok 0 ops = true -> names_type tname name ->
  exists l, BuiltinSet_String tname show s o (bset_after eqb pick ops) = (Ok ("BuiltinSet[" ++ name ++ "][" ++ String.concat " " (map show l) ++ "]")%string, bset_after eqb pick ops) /\
    (forall i j a b, i <> j -> nth_error l i = Some a -> nth_error l j = Some b -> eqb a b = false) /\
    forall x, in_set eqb pick ops s x = existsb (eqb x) l.
Proof.
  intros KE RF PK ops s o tname name show V ->. destruct (C66_len_keys K St eqb pick KE RF PK ops s o V) as (l & EK & _ & _ & D & H). exists l. split; [|split; [exact D|]].
  - unfold BuiltinSet_String, bind, lift. cbn [nameOfType append]. rewrite EK. unfold ret. rewrite print_slice_concat. reflexivity.
  - intros x. unfold in_set, holds. now rewrite H.
Qed.
Theorem C114_set : forall K St (eqb : K -> K -> bool) pick, key_eq eqb -> key_refl eqb -> picks_one pick ->
  forall (ops : list (bop K St)) s o tname name show, refs_ok 0 ops = true -> names_type tname name ->
  exists l, BuiltinSet_String tname show s o (bset_after eqb pick ops) = (Ok ("BuiltinSet[" ++ name ++ "][" ++ String.concat " " (map show l) ++ "]")%string, bset_after eqb pick ops) /\
    (forall i j a b, i <> j -> nth_error l i = Some a -> nth_error l j = Some b -> eqb a b = false) /\
    forall x, in_set eqb pick ops s x = existsb (eqb x) l.
Proof. intros. now apply set_string. Qed.
Print Assumptions C114_set.

(** Expected: sets with the same elements have the same text. *)
Definition C114_expected_same_text : Prop :=
  forall K St (eqb : K -> K -> bool) pick, key_eq eqb -> key_refl eqb -> picks_one pick ->
  forall (ops ops' : list (bop K St)) s s' o o' tname name show, refs_ok 0 ops = true -> refs_ok 0 ops' = true -> names_type tname name -> respects eqb show ->
  (forall x, in_set eqb pick ops s x = in_set eqb pick ops' s' x) -> set_text eqb pick tname show ops s o = set_text eqb pick tname show ops' s' o'.
Lemma c114_zeq : key_eq Z.eqb /\ key_refl Z.eqb /\ picks_one (fun a _ : Z => a).
Proof. split; [split; intros *; rewrite !Z.eqb_eq; lia|]. split; [intros a; apply Z.eqb_refl|intros a b; now left]. Qed.
Theorem C114_refuted_same_text : ~ C114_expected_same_text.
Proof.
  intros H. destruct c114_zeq as (KE & RF & PK).
  specialize (H Z unit Z.eqb (fun a _ => a) KE RF PK [BSetOf [1; 2]] [BSetOf [1; 2]] (Some 0%nat) (Some 0%nat) [0%nat; 1%nat] [1%nat; 0%nat] "*int"%string "int"%string decimal eq_refl eq_refl eq_refl).
  assert (R : respects Z.eqb decimal) by (intros a b E; apply Z.eqb_eq in E; now subst). specialize (H R (fun x => eq_refl)). vm_compute in H. discriminate.
Qed.
Print Assumptions C114_refuted_same_text.
(** What holds: the same words, in some order. *)
Lemma remove_alike {K} (eqb : K -> K -> bool) : key_eq eqb -> key_refl eqb -> forall l l' (show : K -> string), respects eqb show ->
  (forall i j a b, i <> j -> nth_error l i = Some a -> nth_error l j = Some b -> eqb a b = false) ->
  (forall i j a b, i <> j -> nth_error l' i = Some a -> nth_error l' j = Some b -> eqb a b = false) ->
  (forall x, existsb (eqb x) l = existsb (eqb x) l') -> Permutation (map show l) (map show l').
Proof.
  intros KE RF. induction l as [|a l IH]; intros l' show R D D' M.
  - destruct l' as [|b l']; [constructor|]. specialize (M b). cbn [existsb] in M. rewrite RF in M. discriminate.
  - assert (Ma : existsb (eqb a) l' = true). { rewrite <- M. cbn [existsb]. now rewrite RF. }
    apply existsb_exists in Ma as (b & Ib & Eab). apply in_split in Ib as (p & q & ->).
    rewrite map_app. cbn [map]. rewrite (R a b Eab). apply Permutation_cons_app. rewrite <- map_app.
    assert (D2 : forall i j x y, i <> j -> nth_error (p ++ q) i = Some x -> nth_error (p ++ q) j = Some y -> eqb x y = false).
    { set (f := fun i => if Nat.ltb i (length p) then i else S i).
      assert (F : forall i x, nth_error (p ++ q) i = Some x -> nth_error (p ++ b :: q) (f i) = Some x).
      { intros i x G. unfold f. destruct (Nat.ltb_spec i (length p)); [now rewrite nth_error_app1 in * by lia|]. rewrite nth_error_app2 in * by lia. replace (S i - length p)%nat with (S (i - length p)) by lia. exact G. }
      intros i j x y Hij Gx Gy. apply (D' (f i) (f j)); auto. unfold f. destruct (Nat.ltb_spec i (length p)), (Nat.ltb_spec j (length p)); lia. }
    apply IH; auto.
    + intros i j x y Hij Gx Gy. apply (D (S i) (S j)); auto.
    + intros x. specialize (M x). rewrite !existsb_app in *. cbn [existsb] in M.
      destruct (eqb x a) eqn:Exa; cycle 1.
      * assert (Exb : eqb x b = false). { destruct (eqb x b) eqn:Exb; auto. rewrite <- Exa. symmetry. apply (ke_trans eqb KE x b a); auto. now apply ke_sym. }
        rewrite Exb in M. cbn [orb] in M. exact M.
      * (* x == a: in neither rest *)
        assert (N1 : existsb (eqb x) l = false).
        { destruct (existsb (eqb x) l) eqn:E; auto. apply existsb_exists in E as (y & Iy & Exy). apply In_nth_error in Iy as (n & Gn).
          enough (eqb a y = false) by (rewrite <- H; symmetry; apply (ke_trans eqb KE a x y); auto; now apply ke_sym). apply (D 0%nat (S n)); auto. }
        assert (Exb : eqb x b = true) by (apply (ke_trans eqb KE x a b); auto).
        assert (N2 : forall y, In y (p ++ q) -> eqb x y = false).
        { intros y Iy. destruct (eqb x y) eqn:Exy; auto.
          assert (Eby : eqb b y = true) by (apply (ke_trans eqb KE b x y); auto; now apply ke_sym).
          apply in_app_or in Iy as [Iy|Iy]; apply In_nth_error in Iy as (n & Gn).
          - assert (n < length p)%nat by (apply nth_error_Some; congruence). assert (eqb b y = false); [|congruence]. apply (D' (length p) n); [lia| |].
            + rewrite nth_error_app2 by lia. now rewrite Nat.sub_diag.
            + now rewrite nth_error_app1 by lia.
          - assert (eqb b y = false); [|congruence]. apply (D' (length p) (length p + S n)%nat); [lia| |].
            + rewrite nth_error_app2 by lia. now rewrite Nat.sub_diag.
            + rewrite nth_error_app2 by lia. now replace (length p + S n - length p)%nat with (S n) by lia. }
        rewrite N1. symmetry. rewrite <- existsb_app. destruct (existsb (eqb x) (p ++ q)) eqn:E; auto. apply existsb_exists in E as (y & Iy & Exy). rewrite (N2 y Iy) in Exy. discriminate.
Qed.
Theorem C114_same_words : forall K St (eqb : K -> K -> bool) pick, key_eq eqb -> key_refl eqb -> picks_one pick ->
  forall (ops ops' : list (bop K St)) s s' o o' tname name show, refs_ok 0 ops = true -> refs_ok 0 ops' = true -> names_type tname name -> respects eqb show ->
  (forall x, in_set eqb pick ops s x = in_set eqb pick ops' s' x) ->
  exists ws ws', Permutation ws ws' /\
    set_text eqb pick tname show ops s o = Ok ("BuiltinSet[" ++ name ++ "][" ++ String.concat " " ws ++ "]")%string /\
    set_text eqb pick tname show ops' s' o' = Ok ("BuiltinSet[" ++ name ++ "][" ++ String.concat " " ws' ++ "]")%string.
Proof.
  intros K St eqb pick KE RF PK ops ops' s s' o o' tname name show V V' N R M.
  destruct (set_string eqb pick KE RF PK ops s o tname name show V N) as (l & E & D & H). destruct (set_string eqb pick KE RF PK ops' s' o' tname name show V' N) as (l' & E' & D' & H').
  exists (map show l), (map show l'). unfold set_text. rewrite E, E'. split; [|auto]. apply (remove_alike eqb KE RF); auto. intros x. rewrite <- H, <- H'. apply M.
Qed.
Print Assumptions C114_same_words.

(** Expected: sets with different elements have different texts (as long as the
    texts of different elements differ). *)
Definition C114_expected_telling : Prop :=
  forall K St (eqb : K -> K -> bool) pick, key_eq eqb -> key_refl eqb -> picks_one pick ->
  forall (ops ops' : list (bop K St)) s s' o o' tname name show, refs_ok 0 ops = true -> refs_ok 0 ops' = true -> names_type tname name ->
  (forall a b, show a = show b -> eqb a b = true) ->
  set_text eqb pick tname show ops s o = set_text eqb pick tname show ops' s' o' -> forall x, in_set eqb pick ops s x = in_set eqb pick ops' s' x.
Lemma c114_seq : key_eq String.eqb /\ key_refl String.eqb /\ picks_one (fun a _ : string => a).
Proof. split; [split; intros *; rewrite !String.eqb_eq; congruence|]. split; [intros a; apply String.eqb_refl|intros a b; now left]. Qed.
(** SetOf("") and SetOf[string]() *)
Theorem C114_refuted_telling : ~ C114_expected_telling.
Proof.
  intros H. destruct c114_seq as (KE & RF & PK).
  specialize (H string unit String.eqb (fun a _ => a) KE RF PK [BSetOf [""%string]] [BSetOf []] (Some 0%nat) (Some 0%nat) [] [] "*string"%string "string"%string (fun s => s) eq_refl eq_refl eq_refl
    (fun a b E => proj2 (String.eqb_eq a b) E) eq_refl ""%string). vm_compute in H. discriminate.
Qed.
Print Assumptions C114_refuted_telling.
(** SetOf("a b") and SetOf("a", "b") *)
Theorem C114_refuted_telling_spaces :
  exists ops ops' : list (bop string unit), set_text String.eqb (fun a _ => a) "*string" (fun s => s) ops (Some 0%nat) [] = set_text String.eqb (fun a _ => a) "*string" (fun s => s) ops' (Some 0%nat) [] /\
  in_set String.eqb (fun a _ => a) ops (Some 0%nat) "a"%string <> in_set String.eqb (fun a _ => a) ops' (Some 0%nat) "a"%string.
Proof. exists [BSetOf ["a b"%string]], [BSetOf ["a"%string; "b"%string]]. split; [reflexivity|discriminate]. Qed.
Print Assumptions C114_refuted_telling_spaces.
(** What holds: it is so when no element's text is empty or has a space. *)
Theorem C114_telling : forall K St (eqb : K -> K -> bool) pick, key_eq eqb -> key_refl eqb -> picks_one pick ->
  forall (ops ops' : list (bop K St)) s s' o o' tname name show, refs_ok 0 ops = true -> refs_ok 0 ops' = true -> names_type tname name -> telling eqb show ->
  set_text eqb pick tname show ops s o = set_text eqb pick tname show ops' s' o' -> forall x, in_set eqb pick ops s x = in_set eqb pick ops' s' x.
Proof.
  intros K St eqb pick KE RF PK ops ops' s s' o o' tname name show V V' N [G I] E x.
  destruct (set_string eqb pick KE RF PK ops s o tname name show V N) as (l & El & _ & H). destruct (set_string eqb pick KE RF PK ops' s' o' tname name show V' N) as (l' & El' & _ & H').
  unfold set_text in E. rewrite El, El' in E. cbn [fst] in E. injection E as E. apply append_cancel_l in E.
  injection E as E. apply append_cancel_r in E. apply concat_words in E.
  - rewrite H, H'. clear - KE I E. revert l' E. induction l as [|a l IH]; intros [|b l'] E; try discriminate; [reflexivity|]. cbn [map] in E. injection E as E1 E2. cbn [existsb]. f_equal; [|auto].
    apply I in E1. destruct (eqb x a) eqn:A, (eqb x b) eqn:B; auto.
    + rewrite <- B. symmetry. now apply (ke_trans eqb KE x a b).
    + rewrite <- A. apply (ke_trans eqb KE x b a); auto. now apply ke_sym.
  - intros w [Hw|Hw]; apply in_map_iff in Hw as (k & <- & _); apply G.
Qed.
Print Assumptions C114_telling.
(** Sets of integers, printed in decimal: the text tells the set. *)
Theorem C114_integers : forall St pick, picks_one pick -> forall (ops ops' : list (bop Z St)) s s' o o' tname name, refs_ok 0 ops = true -> refs_ok 0 ops' = true -> names_type tname name ->
  set_text Z.eqb pick tname decimal ops s o = set_text Z.eqb pick tname decimal ops' s' o' -> forall x, in_set Z.eqb pick ops s x = in_set Z.eqb pick ops' s' x.
Proof. intros St pick PK ops ops' s s' o o' tname name V V' N. destruct c114_zeq as (KE & RF & _). eapply C114_telling; eauto. apply decimal_telling. Qed.
Print Assumptions C114_integers.

Example C114_hyp : telling Z.eqb decimal /\ respects Z.eqb decimal /\ names_type "*int" "int" /\
  let ops := [BSetOf [10; -3; 10]; BInsert (Some 0%nat) 0] : list (bop Z unit) in
  refs_ok 0 ops = true /\
  set_text Z.eqb (fun a _ => a) "*int" decimal ops (Some 0%nat) [2%nat] = Ok "BuiltinSet[int][0 10 -3]"%string /\
  set_text Z.eqb (fun a _ => a) "*int" decimal ops None [] = Ok "BuiltinSet[int][]"%string.
Proof. split; [apply decimal_telling|]. split; [intros a b E; apply Z.eqb_eq in E; now subst|]. vm_compute. auto. Qed.
