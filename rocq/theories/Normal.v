(** Model of /repo/core/src/common/foreign_aggregates/normalize.rs for the provenances with
    probabilities (the default, 60-69, leaves the batch as it is).
    Simplifications: real numbers instead of f64; an element is its tuple, the weight of its
    tag and, for results, the exclusion of the new tag. *)
From Coq Require Import Reals List.
Import ListNotations.
Local Open Scope R_scope.
Set Implicit Arguments.

(** normalize.rs 113-116, 118-121. *)
Definition softmax (ws : list R) : list R :=
  let s := fold_left (fun acc v => acc + exp v) ws 0 in map (fun v => exp v / s) ws.
Definition normalize (ws : list R) : list R :=
  let s := fold_left (fun acc v => acc + v) ws 0 in map (fun v => v / s) ws.
(** normalize.rs 77-103; [next] is the next exclusion id. *)
Definition normalize_agg (T : Type) (soft : bool) (next : nat) (batch : list (T * R)) : list (T * R * nat) * nat :=
  let ws := map snd batch in
  (map (fun ep => (fst (fst ep), snd ep, next)) (combine batch (if soft then softmax ws else normalize ws)), S next).
