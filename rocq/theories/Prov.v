(** Model of the provenance interface:
    /repo/core/src/runtime/provenance/provenance.rs 6-75 and
    /repo/core/src/runtime/provenance/tag.rs 13-31 (tagged elements). *)
From Coq Require Import List.
From Verif Require Import Order Value.
Set Implicit Arguments.

(** provenance.rs 6-75 [trait Provenance], operations on internal tags only.
    [tagging_fn]/[recover_fn] are not part of the record (evaluation only sees
    internal tags); [weight : Tag -> f64] is only ever used in comparisons
    [weight a < weight b], which [pwlt a b] stands for. *)
Record Prov := {
  ptag : Type;
  pzero : ptag;
  pone : ptag;
  padd : ptag -> ptag -> ptag;
  pmult : ptag -> ptag -> ptag;
  pneg : ptag -> option ptag;
  pminus : ptag -> ptag -> option ptag;
  psat : ptag -> ptag -> bool;
  pdiscard : ptag -> bool;
  pwlt : ptag -> ptag -> bool
}.

(** provenance.rs 61-63, the default [minus]. *)
Definition default_minus {T} (mult : T -> T -> T) (neg : T -> option T) (t1 t2 : T) : option T :=
  option_map (mult t1) (neg t2).

(** provenance/tag.rs 13-31 [Tagged]: a tuple with a tag; comparisons look at
    the tuple only. *)
Definition elem (P : Prov) : Type := (tuple * ptag P)%type.
