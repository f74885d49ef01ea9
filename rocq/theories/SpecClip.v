(** * Comparing two settings of clip_at. *)
From Coq Require Import Reals.
Local Open Scope R_scope.

(** The first setting limits the observations at least as much as the second; None does not limit them. *)
Definition tighter (rc rc' : option R) : Prop :=
  match rc, rc' with _, None => True | Some c, Some c' => Rabs c <= Rabs c' | None, Some _ => False end.
