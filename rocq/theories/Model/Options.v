(** options.hpp: output_options. *)
From Verif Require Import Model.Base.
Local Open Scope N_scope.

(** options.hpp:96-101 *)
Definition NO_OUTPUT : N := 0.
Definition STORE_IN_VECTORS : N := 1.
Definition WRITE_TO_FILE : N := 2.

(** options.hpp:93-133, struct output_options.  [output_mode] is a 64-bit unsigned number.  [output_stream] is
    left uninitialised by the constructor ([None]); a stream is named by a number.  [log_out] is not modelled
    (diagnostics only). *)
Record output_options := OutputOptions {
  output_mode : N;
  output_interval : Z;
  output_stream : option nat
}.

(** options.hpp:95, 103-106: the constructor with its default member initialisers *)
Definition output_options_default : output_options := OutputOptions STORE_IN_VECTORS 1 None.

(** options.hpp:108-111 *)
Definition store_in_vectors (o : output_options) : bool :=
  negb (N.land (output_mode o) (N.shiftl 1 (STORE_IN_VECTORS - 1)) =? 0).
(** options.hpp:112-115 *)
Definition write_to_file (o : output_options) : bool :=
  negb (N.land (output_mode o) (N.shiftl 1 (WRITE_TO_FILE - 1)) =? 0).
(** options.hpp:117-121 *)
Definition set_output_stream (o : output_options) (s : nat) : output_options :=
  OutputOptions (N.lor (output_mode o) (N.shiftl 1 (WRITE_TO_FILE - 1))) (output_interval o) (Some s).
(** options.hpp:124-127 *)
Definition enable_store_in_vectors (o : output_options) : output_options :=
  OutputOptions (N.lor (output_mode o) (N.shiftl 1 (STORE_IN_VECTORS - 1))) (output_interval o) (output_stream o).
(** options.hpp:128-131; [~1] is the int -2, converted to 64 bits *)
Definition disable_store_in_vectors (o : output_options) : output_options :=
  OutputOptions (N.land (output_mode o) (2 ^ 64 - 1 - N.shiftl 1 (STORE_IN_VECTORS - 1)))
                (output_interval o) (output_stream o).

(** The calls a client can make. *)
Inductive oo_call := SetStream (s : nat) | EnableStore | DisableStore.
Definition oo_do (o : output_options) (c : oo_call) : output_options :=
  match c with
  | SetStream s => set_output_stream o s
  | EnableStore => enable_store_in_vectors o
  | DisableStore => disable_store_in_vectors o
  end.
