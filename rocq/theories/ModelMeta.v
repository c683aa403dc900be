(** Model of the template metaprograms and small containers on which the
    expression templates are built.  All citations are relative to
    /repo/include/wave/geometry/src.  Type lists are lists; integer sequences
    are lists of nat. *)

From Coq Require Import Reals List Arith Bool.
From Verif Require Import Mat.
Import ListNotations.

(** ** Type lists *)

Section TypeLists.
  Context {A : Type} (eqb : A -> A -> bool).

  (** util/meta/type_list.hpp 169-191: [find]; index of the first match, or -1
      (here [None]).  The accumulating parameter I is the same. *)
  Fixpoint find_from (l : list A) (target : A) (i : nat) : option nat :=
    match l with
    | [] => None
    | h :: tl => if eqb h target then Some i else find_from tl target (S i)
    end.

  Definition find_idx (l : list A) (target : A) : option nat := find_from l target 0.

  (** util/meta/type_list.hpp 193-211: [concat_if_unique].  [None] stands for
      [std::false_type] (which has no member list). *)
  Fixpoint concat_if_unique (a b : list A) : option (list A) :=
    match b with
    | [] => Some a
    | b0 :: bs =>
        match find_idx a b0 with
        | Some _ => None
        | None => concat_if_unique (a ++ [b0]) bs
        end
    end.

  (** util/meta/type_list.hpp 346-368: [filter]; keeps the order. *)
  Definition tfilter (p : A -> bool) (l : list A) : list A :=
    concat (map (fun t => if p t then [t] else []) l).
End TypeLists.

(** Outcome of instantiating templates: a result or a compile-time error. *)
Inductive oc (A : Type) : Type :=
| Ok (x : A)
| NoCompile.
Arguments Ok {A} x.
Arguments NoCompile {A}.

Section UniqueMany.
  Context {A : Type} (eqb : A -> A -> bool).

  (** util/meta/type_list.hpp 214-247: [concat_if_unique_many] over "unique
      leaves" results (a list, or [None] for a false_type).  In the case of three
      or more lists the code names [U1::type] and [U2::type] unconditionally, so a
      [None] operand is a hard error there; with exactly two it is tested first.
      When the first union fails, the result is that failed union (false_type). *)
  Fixpoint concat_if_unique_many (u1 : option (list A)) (us : list (option (list A)))
    : oc (option (list A)) :=
    match us with
    | [] => Ok u1
    | [u2] =>
        match u1, u2 with
        | Some a, Some b => Ok (concat_if_unique eqb a b)
        | _, _ => Ok None
        end
    | u2 :: tail =>
        match u1, u2 with
        | Some a, Some b =>
            match concat_if_unique eqb a b with
            | Some ab => concat_if_unique_many (Some ab) tail
            | None => Ok None
            end
        | _, _ => NoCompile
        end
    end.
End UniqueMany.

(** ** Integer sequences *)

(** util/meta/type_list.hpp 282-297: [cumulative_index_sequence_impl]. *)
Fixpoint cumulative_impl (out sizes : list nat) (prev : nat) : list nat :=
  match sizes with
  | [] => out
  | n :: rest =>
      match rest with
      | [] => out
      | _ :: _ => cumulative_impl (out ++ [prev + n])%list rest (prev + n)
      end
  end.

(** util/meta/type_list.hpp 316-330: [accumulate_index_sequence]. *)
Definition accumulate_index_sequence (sizes : list nat) : list nat :=
  cumulative_impl [] (0 :: sizes) 0.

(** util/meta/index_sequence.hpp 130-142: [sum_sequence]. *)
Fixpoint sum_sequence (sizes : list nat) : nat :=
  match sizes with [] => 0 | h :: tl => h + sum_sequence tl end.

(** util/meta/type_list.hpp 333-343: [integer_sequence_element]; an index out of
    range has no specialization. *)
Fixpoint integer_sequence_element (i : nat) (s : list nat) : option nat :=
  match i, s with
  | 0, h :: _ => Some h
  | S i', _ :: tl => integer_sequence_element i' tl
  | _, [] => None
  end.

(** util/meta/index_sequence.hpp 98-128: [filter_index_sequence]. *)
Definition filter_index_sequence (p : nat -> bool) (s : list nat) : list nat :=
  concat (map (fun i => if p i then [i] else []) s).

(** ** BlockMatrix *)

(** Eigen [block(i, j, r, c)] read access. *)
Definition mblock (M : mat) (i j r c : nat) : mat :=
  Mat r c (fun a b => mnth M (i + a) (j + b)).

(** Eigen [block(i, j, r, c) = B] write access. *)
Definition mset_block (M : mat) (i j r c : nat) (B : mat) : mat :=
  Mat (mrows M) (mcols M)
    (fun a b =>
       if ((i <=? a) && (a <? i + r) && (j <=? b) && (b <? j + c))%nat
       then mnth B (a - i) (b - j) else mnth M a b).

(** core/storage/BlockMatrix.hpp 32-44: size and start index of component I of a
    compound with tangent sizes [sizes]; [None] is the static_assert failure. *)
Definition block_range (sizes : list nat) (i : nat) : option (nat * nat) :=
  match integer_sequence_element i (accumulate_index_sequence sizes),
        integer_sequence_element i sizes with
  | Some off, Some sz => Some (off, sz)
  | _, _ => None
  end.

(** core/storage/BlockMatrix.hpp 54-69: blockWrt<I, J>() as a range. *)
Definition blockWrt (ls rs : list nat) (M : mat) (i j : nat) : option mat :=
  match block_range ls i, block_range rs j with
  | Some (ro, rn), Some (co, cn) => Some (mblock M ro co rn cn)
  | _, _ => None
  end.

(** core/storage/BlockMatrix.hpp 54-60: assignment through blockWrt<I, J>(). *)
Definition set_blockWrt (ls rs : list nat) (M : mat) (i j : nat) (B : mat) : option mat :=
  match block_range ls i, block_range rs j with
  | Some (ro, rn), Some (co, cn) => Some (mset_block M ro co rn cn B)
  | _, _ => None
  end.

(** core/storage/BlockMatrix.hpp 86-97: rowsWrt<I>(). *)
Definition rowsWrt (ls : list nat) (M : mat) (i : nat) : option mat :=
  match block_range ls i with
  | Some (ro, rn) => Some (mblock M ro 0 rn (mcols M))
  | None => None
  end.

(** core/storage/BlockMatrix.hpp 72-83: colsWrt<J>(). *)
Definition colsWrt (rs : list nat) (M : mat) (j : nat) : option mat :=
  match block_range rs j with
  | Some (co, cn) => Some (mblock M 0 co (mrows M) cn)
  | None => None
  end.

(** core/storage/BlockMatrix.hpp 86-90: assignment through rowsWrt<I>().  The
    block has a static size, so a right-hand side of another size is rejected at
    compile time. *)
Definition set_rowsWrt (ls : list nat) (M : mat) (i : nat) (B : mat) : oc mat :=
  match block_range ls i with
  | Some (ro, rn) =>
      if ((mrows B =? rn) && (mcols B =? mcols M))%nat
      then Ok (mset_block M ro 0 rn (mcols M) B) else NoCompile
  | None => NoCompile
  end.

(** ** MatrixMap (util/math/MatrixMap.hpp) *)

(** Keys are addresses.  [mm_index] is the flat_map key -> (col_index, col_width),
    given here as an association list in insertion order with unique keys. *)
Record MatrixMap := {
  mm_storage : mat;
  mm_index : list (nat * (nat * nat))
}.

Fixpoint mm_lookup (ix : list (nat * (nat * nat))) (k : nat) : option (nat * nat) :=
  match ix with
  | [] => None
  | (k', v) :: tl => if (k' =? k)%nat then Some v else mm_lookup tl k
  end.

(** boost flat_map emplace_hint: no effect if the key is present. *)
Definition mm_emplace (ix : list (nat * (nat * nat))) (k : nat) (v : nat * nat) :=
  match mm_lookup ix k with
  | Some _ => ix
  | None => (ix ++ [(k, v)])%list
  end.

(** util/math/MatrixMap.hpp 47-58: constructor loop; [col] advances for every
    item, also for a duplicate key.  The storage is left uninitialised: its
    contents are the parameter [garbage]. *)
Fixpoint mm_build (items : list (nat * nat)) (ix : list (nat * (nat * nat))) (col : nat)
  : list (nat * (nat * nat)) * nat :=
  match items with
  | [] => (ix, col)
  | (k, w) :: tl => mm_build tl (mm_emplace ix k (col, w)) (col + w)
  end.

Definition mm_make (garbage : nat -> nat -> R) (items : list (nat * nat)) (rows : nat)
  : MatrixMap :=
  let '(ix, col) := mm_build items [] 0 in
  {| mm_storage := Mat rows col garbage; mm_index := ix |}.

(** util/math/MatrixMap.hpp 94-96. *)
Definition mm_setZero (m : MatrixMap) : MatrixMap :=
  {| mm_storage := mzero (mrows (mm_storage m)) (mcols (mm_storage m));
     mm_index := mm_index m |}.

(** util/math/MatrixMap.hpp 89-91. *)
Definition mm_count (m : MatrixMap) (k : nat) : nat :=
  match mm_lookup (mm_index m) k with Some _ => 1 | None => 0 end.

(** util/math/MatrixMap.hpp 75-86: at(); [None] is the out_of_range exception. *)
Definition mm_at (m : MatrixMap) (k : nat) : option mat :=
  match mm_lookup (mm_index m) k with
  | Some (c, w) => Some (mblock (mm_storage m) 0 c (mrows (mm_storage m)) w)
  | None => None
  end.

(** util/math/MatrixMap.hpp 61-64: operator[] default-inserts {0, 0} for a missing
    key and returns a zero-width block. *)
Definition mm_sub (m : MatrixMap) (k : nat) : MatrixMap * mat :=
  match mm_lookup (mm_index m) k with
  | Some (c, w) => (m, mblock (mm_storage m) 0 c (mrows (mm_storage m)) w)
  | None =>
      ({| mm_storage := mm_storage m; mm_index := (mm_index m ++ [(k, (0, 0))])%list |},
       mblock (mm_storage m) 0 0 (mrows (mm_storage m)) 0)
  end.

(** [m[k] = B] through the returned block; [None] is Eigen's assertion that both
    sides have the same size. *)
Definition mm_set (m : MatrixMap) (k : nat) (B : mat) : option MatrixMap :=
  let '(m', blk) := mm_sub m k in
  match mm_lookup (mm_index m') k with
  | Some (c, w) =>
      if ((mrows B =? mrows blk) && (mcols B =? mcols blk))%nat then
        Some {| mm_storage := mset_block (mm_storage m') 0 c (mrows (mm_storage m')) w B;
                mm_index := mm_index m' |}
      else None
  | None => None
  end.

(** core/functions/DynamicReverseJacobianEvaluator.hpp 65-70: [jac_map[target] +=
    adjoint]. *)
Definition mm_add (m : MatrixMap) (k : nat) (B : mat) : option MatrixMap :=
  mm_set m k (madd (snd (mm_sub m k)) B).

(** ** Search for conversions (core/functions/AddConversions.hpp) *)

Section Conversions.
  (** T: evaluated (leaf) types.  [can_convert from to] is
      [is_directly_evaluable_unary<expr<Convert, to>, from>]. *)
  Context {T : Type} (can_convert : T -> T -> bool).

  Inductive unary_choice := UDirect | UConvert (t : T).

  (** [disjunction]: the first test that holds (util/meta/template_helpers.hpp 36-45). *)
  Fixpoint first_true {X : Type} (test : X -> bool) (l : list X) : option X :=
    match l with
    | [] => None
    | x :: tl => if test x then Some x else first_true test tl
    end.

  (** AddConversions.hpp 43-71.  [None]: nothing_matches (static_assert). *)
  Definition choose_unary (direct : T -> bool) (rhs : T) (convert_to : list T)
    : option unary_choice :=
    if direct rhs then Some UDirect
    else match first_true (fun t => can_convert rhs t && direct t) convert_to with
         | Some t => Some (UConvert t)
         | None => None
         end.

  Inductive binary_choice :=
  | BDirect
  | BConvertRight (r : T)
  | BConvertLeft (l : T)
  | BConvertBoth (l r : T).

  (** util/meta/type_list.hpp 148-167: apply_cartesian, left list outermost. *)
  Definition cartesian (ls rs : list T) : list (T * T) :=
    concat (map (fun l => map (fun r => (l, r)) rs) ls).

  (** AddConversions.hpp 111-169. *)
  Definition choose_binary (direct : T -> T -> bool) (lhs rhs : T)
      (lhs_convert_to rhs_convert_to : list T) : option binary_choice :=
    if direct lhs rhs then Some BDirect
    else match first_true (fun r => can_convert rhs r && direct lhs r) rhs_convert_to with
         | Some r => Some (BConvertRight r)
         | None =>
         match first_true (fun l => can_convert lhs l && direct l rhs) lhs_convert_to with
         | Some l => Some (BConvertLeft l)
         | None =>
         match first_true
                 (fun p => can_convert lhs (fst p) && can_convert rhs (snd p)
                           && direct (fst p) (snd p))
                 (cartesian lhs_convert_to rhs_convert_to) with
         | Some p => Some (BConvertBoth (fst p) (snd p))
         | None => None
         end end end.
End Conversions.
