(** cyclic_buffer.hpp. *)
From Verif Require Import Model.Base.
Local Open Scope mon_scope.
Local Open Scope Z_scope.

Section CB.
  Context {A : Type}.

  (** cyclic_buffer.hpp:214-218 (private members; [long] as Z: overflow would need 2^63 elements). *)
  Record cbuf := CBuf {
    period_ : Z;
    current_ : Z;
    size_ : Z;
    storage_ : list A
  }.

  (** cyclic_buffer.hpp:15-16, [cyclic_buffer()] *)
  Definition cb_default : cbuf := CBuf 0 0 0 [].

  (** cyclic_buffer.hpp:18-20, [explicit cyclic_buffer(int period)]; [dflt] is the value-initialised element.
      A negative period requests a vector of more than max_size elements: [std::length_error]. *)
  Definition cb_make (dflt : A) (period : Z) : res cbuf :=
    if period <? 0 then Err (EThrow ELogic)
    else Ok (CBuf period 0 0 (repeat dflt (Z.to_nat (2 * period)))).

  (** cyclic_buffer.hpp:21-22, copy constructor. *)
  Definition cb_copy (o : cbuf) : cbuf := CBuf (period_ o) (current_ o) (size_ o) (storage_ o).

  (** [storage_[j]]: out of range is undefined behaviour. *)
  Definition st_get (s : list A) (j : Z) : res A :=
    if (0 <=? j) && (j <? Z.of_nat (length s))
    then match nth_error s (Z.to_nat j) with Some x => Ok x | None => Err EUB end
    else Err EUB.
  Definition st_set (s : list A) (j : Z) (x : A) : res (list A) :=
    if (0 <=? j) && (j <? Z.of_nat (length s)) then Ok (list_set s (Z.to_nat j) x) else Err EUB.

  (** cyclic_buffer.hpp:61-63 *)
  Definition cb_empty (b : cbuf) : bool := size_ b =? 0.
  (** cyclic_buffer.hpp:125-129 *)
  Definition cb_size (b : cbuf) : Z := size_ b.
  Definition cb_period (b : cbuf) : Z := period_ b.

  (** cyclic_buffer.hpp:68-84, [operator[]] with [i >= 0] ([std::size_t]).  Without asserts ([ndebug]) a too
      large index wraps [current_ - i] around to a huge unsigned value: out of range. *)
  Definition cb_get (ndebug : bool) (b : cbuf) (i : Z) : res A :=
    if negb ndebug && negb (i <? period_ b) then Err EAbort
    else if negb ndebug && negb (i <=? current_ b) then Err EAbort
    else st_get (storage_ b) (current_ b - i).

  (** cyclic_buffer.hpp:102-122, [push_back] *)
  Definition cb_push (b : cbuf) (x : A) : res cbuf :=
    let next_spot := if size_ b =? 0 then 0 else current_ b + 1 in
    st' <-- (if next_spot >=? period_ b then
               s1 <-- st_set (storage_ b) next_spot x ;;
               st_set s1 (next_spot - period_ b) x
             else st_set (storage_ b) next_spot x) ;;
    let cur := if next_spot =? 2 * period_ b - 1 then period_ b - 1 else next_spot in
    let sz := if size_ b <? period_ b then size_ b + 1 else size_ b in
    Ok (CBuf (period_ b) cur sz st').

  (** cyclic_buffer.hpp:166-173, [end()]: the effect on the buffer ([current_ = period_] in the first
      branch is an assignment). *)
  Definition cb_end (b : cbuf) : cbuf :=
    if period_ b <=? current_ b
    then CBuf (period_ b) (period_ b) (size_ b) (storage_ b)
    else b.

  (** cyclic_buffer.hpp:133-158: an iterator's fields are never initialised by its constructor, so that
      [operator++], [==], [*] read indeterminate values. *)
  Record cb_iterator := CBIter { idx_ : option Z; it_ : option unit }.
  Definition cb_begin (b : cbuf) : cb_iterator := CBIter None None.
  Definition cb_end_iter (b : cbuf) : cbuf * cb_iterator := (cb_end b, CBIter None None).
  Definition iter_deref (b : cbuf) (it : cb_iterator) : res A :=
    match idx_ it, it_ it with Some j, Some _ => st_get (storage_ b) j | _, _ => Err EUB end.
  Definition iter_eq (a b : cb_iterator) : res bool :=
    match idx_ a, idx_ b with Some i, Some j => Ok (i =? j) | _, _ => Err EUB end.

  (** cyclic_buffer.hpp:180-186, [resize(size)]: [clear] + [reserve], so the storage has no elements. *)
  Definition cb_resize (b : cbuf) (n : Z) : cbuf := CBuf n 0 (size_ b) [].

  (** A history of pushes. *)
  Fixpoint cb_pushes (b : cbuf) (xs : list A) : res cbuf :=
    match xs with
    | [] => Ok b
    | x :: xs' => b' <-- cb_push b x ;; cb_pushes b' xs'
    end.
End CB.
Arguments cbuf A : clear implicits.
