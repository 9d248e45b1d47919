(** Model of /repo/helper.go and of the String methods (dlist.go:44-47,
    dlist_queue.go:33-36, builtin_set.go:103-106). *)
From Coq Require Import String Ascii.
From Verif Require Import Base Nodes Spec_BSet Model_DList Model_DListQueue Model_BuiltinSet.

(** helper.go:8-11 nameOfType.  [tname] is reflect.TypeOf(t).String() for a t of
    type *T; s[1:] panics when s is empty. *)
Definition nameOfType (tname : string) : outcome string :=
  match tname with EmptyString => Panic | String.String _ s => Ok s end.
(** A pure computation in the middle of a call. *)
Definition lift {S A} (r : outcome A) : M S A := fun s => (r, s).

(** fmt of a slice with %v, given the text of each element ([show]: the verb %v
    of the element): '[', the elements with a space before each but the first, ']'. *)
Fixpoint print_elems (i : nat) (ws : list string) : string :=
  match ws with
  | [] => ""
  | w :: r => (if Nat.ltb 0 i then " " else "") ++ w ++ print_elems (S i) r
  end%string.
Definition print_slice (ws : list string) : string := ("[" ++ print_elems 0 ws ++ "]")%string.

Section Strings.
(** reflect.TypeOf(t).String() *)
Variable tname : string.
(** dlist.go:44-47 String. *)
Definition DList_String {T} : P (dnode T) dlist string :=
  n <- lift (nameOfType tname) ;; ret ("DList[" ++ n ++ "]")%string.
(** dlist_queue.go:33-36 String. *)
Definition DListQueue_String {T} : P (dnode T) dqueue string :=
  n <- lift (nameOfType tname) ;; ret ("Queue[" ++ n ++ "]")%string.
(** builtin_set.go:103-106 String. *)
Definition BuiltinSet_String {K} (show : K -> string) (s : sref) (o : list nat) : M (list (gomap K)) string :=
  n <- lift (nameOfType tname) ;;
  ks <- b_Keys s o ;;
  ret ("BuiltinSet[" ++ n ++ "]" ++ print_slice (map show ks))%string.
End Strings.
