(** Property theorems about output_options (C68). *)
From Verif Require Import Model.Base Model.Options Proofs.OptionsProofs.
Local Open Scope N_scope.

(** C68.  After any sequence of calls, starting from any options, each predicate reports the last setting of its
    own bit and the stream is the last one set; no call changes the output interval. *)
Theorem C68_output_bits_independent :
  forall o (h : list oo_call),
  store_in_vectors (fold_left oo_do h o) =
    fold_left (fun b c => match c with EnableStore => true | DisableStore => false | SetStream _ => b end)
              h (store_in_vectors o) /\
  write_to_file (fold_left oo_do h o) =
    fold_left (fun b c => match c with SetStream _ => true | _ => b end) h (write_to_file o) /\
  output_stream (fold_left oo_do h o) =
    fold_left (fun b c => match c with SetStream s => Some s | _ => b end) h (output_stream o).
Proof. exact oo_history. Qed.
Print Assumptions C68_output_bits_independent.

(** From the default options, file output is on exactly when there is a stream to write to. *)
Theorem C68_write_to_file_has_stream :
  forall h : list oo_call,
  let o := fold_left oo_do h output_options_default in
  write_to_file o = true <-> output_stream o <> None.
Proof. exact write_has_stream. Qed.
Print Assumptions C68_write_to_file_has_stream.

Theorem C68_output_interval_unchanged :
  forall o (h : list oo_call), output_interval (fold_left oo_do h o) = output_interval o.
Proof. exact oo_interval. Qed.
Print Assumptions C68_output_interval_unchanged.

Example C68_example :
  let o := fold_left oo_do [SetStream 4%nat; DisableStore] output_options_default in
  store_in_vectors output_options_default = true /\ write_to_file output_options_default = false /\
  store_in_vectors o = false /\ write_to_file o = true /\ output_stream o = Some 4%nat.
Proof. vm_compute. auto. Qed.
