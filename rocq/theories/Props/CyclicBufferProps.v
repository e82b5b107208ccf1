(** Property theorems about cyclic_buffer.hpp (C01, C02, C03). *)
From Verif Require Import Model.Base Model.CyclicBuffer Proofs.CyclicBufferProofs.
Local Open Scope Z_scope.

(** C01.  After any history [xs] of pushes (oldest first), the buffer of period [p] has size
    [min (length xs) p], and index [i] below the size yields the [i]-th most recently pushed element. *)
Theorem C01_cyclic_buffer_window :
  forall (A : Type) (d : A) (p : Z) (xs : list A), 1 <= p ->
  exists b0 b, cb_make d p = Ok b0 /\ cb_pushes b0 xs = Ok b /\
    cb_size b = Z.min (Z.of_nat (length xs)) p /\
    forall nd i, 0 <= i < cb_size b ->
      exists x, nth_error (rev xs) (Z.to_nat i) = Some x /\ cb_get nd b i = Ok x.
Proof. exact @window_lemma. Qed.
Print Assumptions C01_cyclic_buffer_window.

Example C01_example :
  exists b0 b, cb_make 0%nat 3 = Ok b0 /\ cb_pushes b0 [10; 20; 30; 40; 50]%nat = Ok b /\
    cb_get false b 0 = Ok 50%nat /\ cb_get false b 1 = Ok 40%nat /\ cb_get false b 2 = Ok 30%nat /\
    cb_get false b 3 = Err EAbort.
Proof.
  do 2 eexists. split; [vm_compute; reflexivity|]. split; [vm_compute; reflexivity|].
  vm_compute. auto.
Qed.

(** C02.  Indices at or beyond the size are stopped by an assertion ... *)
Theorem C02_index_beyond_size_aborts :
  forall (A : Type) (d : A) (p : Z) (xs : list A) b0 b i, 1 <= p ->
  cb_make d p = Ok b0 -> cb_pushes b0 xs = Ok b ->
  cb_size b <= i -> (xs <> [] \/ 0 < i) -> cb_get false b i = Err EAbort.
Proof. exact @index_beyond_size_aborts. Qed.
Print Assumptions C02_index_beyond_size_aborts.

(** ... except index 0 of an empty buffer, which yields a value that was never pushed. *)
Theorem C02_empty_buffer_index0_refuted :
  forall (A : Type) (d : A) (p : Z) b0, 1 <= p -> cb_make d p = Ok b0 ->
  cb_empty b0 = true /\ cb_get false b0 0 = Ok d.
Proof. exact @empty_index0. Qed.
Print Assumptions C02_empty_buffer_index0_refuted.

(** With period 0 (in particular after default construction) the first push is undefined behaviour. *)
Theorem C02_period0_push_undefined :
  forall (A : Type) (b : cbuf A) (d x : A), cb_make d 0 = Ok b \/ b = cb_default -> cb_push b x = Err EUB.
Proof. exact @period0_push. Qed.
Print Assumptions C02_period0_push_undefined.

(** C03.  After [end()] on a buffer that has wrapped, the newest [n mod p - 1] elements have disappeared from
    view: index [i] yields the element that was at index [i + (n mod p - 1)]. *)
Theorem C03_end_shifts_contents :
  forall (A : Type) (d : A) (p : Z) (xs : list A) b0 b nd i, 1 <= p ->
  cb_make d p = Ok b0 -> cb_pushes b0 xs = Ok b ->
  let m := Z.of_nat (length xs) mod p in
  p <= Z.of_nat (length xs) -> 1 <= m -> 0 <= i -> i + (m - 1) < p ->
  exists x, nth_error (rev xs) (Z.to_nat (i + (m - 1))) = Some x /\ cb_get nd (cb_end b) i = Ok x.
Proof. exact @end_get. Qed.
Print Assumptions C03_end_shifts_contents.

(** The contract "[end()] changes nothing" is refuted ... *)
Theorem C03_end_is_harmless_refuted :
  exists (b0 b : cbuf nat) (xs : list nat),
    cb_make 0%nat 3 = Ok b0 /\ cb_pushes b0 xs = Ok b /\ cb_get false b 0 <> cb_get false (cb_end b) 0.
Proof. exact end_is_harmless_refuted. Qed.
Print Assumptions C03_end_is_harmless_refuted.

(** ... and holds exactly in the remaining cases. *)
Theorem C03_end_harmless_otherwise :
  forall (A : Type) (d : A) (p : Z) (xs : list A) b0 b, 1 <= p ->
  cb_make d p = Ok b0 -> cb_pushes b0 xs = Ok b ->
  (Z.of_nat (length xs) < p \/ Z.of_nat (length xs) mod p <= 1) -> cb_end b = b.
Proof. exact @end_harmless. Qed.
Print Assumptions C03_end_harmless_otherwise.

(** After [resize] every push is undefined behaviour, whatever the buffer and the new size. *)
Theorem C03_resize_then_push_undefined :
  forall (A : Type) (b : cbuf A) (n : Z) (x : A), cb_push (cb_resize b n) x = Err EUB.
Proof. exact @resize_push. Qed.
Print Assumptions C03_resize_then_push_undefined.

(** Dereferencing or comparing an iterator reads an indeterminate value. *)
Theorem C03_iterators_undefined :
  forall (A : Type) (b : cbuf A),
    iter_deref b (cb_begin b) = Err EUB /\ iter_eq (cb_begin b) (snd (cb_end_iter b)) = Err EUB.
Proof. exact @iterators_undefined. Qed.
Print Assumptions C03_iterators_undefined.
