(** One run continues another. *)
From Verif Require Import Model.Base Model.Scalar Model.LinAlg Model.Erk Model.Irk Model.Multistep.

(** the list [b] starts with the list [a] *)
Definition extends {A} (a b : list A) : Prop := exists l, b = a ++ l.

(** the same options with another limit of the number of steps *)
Definition erk_limited {T} (o : erk_options T) (n : Z) : erk_options T := ErkOptions (eo_adaptive o) (eo_rel_tol o) (eo_abs_tol o) (eo_max_dt o) n.
Definition irk_limited {T} (o : irk_options T) (n : Z) : irk_options T := IrkOptions (io_adaptive o) (io_rel_tol o) (io_abs_tol o) (io_max_dt o) n (io_newton o).
(** [n] is a limit, and [n'] a weaker one (negative: none) *)
Definition weaker_limit (n n' : Z) : Prop := (0 <= n /\ (n' < 0 \/ n <= n'))%Z.

(** everything recorded in [a] is recorded, in the same place, in [b], and nothing is counted less often *)
Definition erk_continues {T} (a b : erk_output T) : Prop :=
  extends (eo_t_vals a) (eo_t_vals b) /\ extends (eo_y_vals a) (eo_y_vals b) /\ extends (eo_stages a) (eo_stages b) /\
  extends (eo_err_est a) (eo_err_est b) /\ extends (eo_err a) (eo_err b) /\
  (eo_attempt a <= eo_attempt b)%nat /\ (eo_reject_err a <= eo_reject_err b)%nat.
Definition irk_continues {T} (a b : irk_output T) : Prop :=
  extends (io_t_vals a) (io_t_vals b) /\ extends (io_y_vals a) (io_y_vals b) /\ extends (io_stages a) (io_stages b) /\
  extends (io_err_est a) (io_err_est b) /\ extends (io_err a) (io_err b) /\
  (ct_attempt (io_count a) <= ct_attempt (io_count b))%nat /\ (ct_reject_newton (io_count a) <= ct_reject_newton (io_count b))%nat /\
  (ct_reject_err (io_count a) <= ct_reject_err (io_count b))%nat /\ (ct_newton_success (io_count a) <= ct_newton_success (io_count b))%nat.
Definition basic_continues {T} (a b : basic_output T) : Prop :=
  extends (bo_t_vals a) (bo_t_vals b) /\ extends (bo_y_vals a) (bo_y_vals b).
