(** Model of how relations get their attributes: compiler/front/analyzers/{demand_attr, goal_relation,
    hidden_relation, scheduler_attr, output_files}.rs, the transformations of declarations that carry
    attributes (transformations/{desugar_arg_type_anno, conjunctive_head}.rs, transform.rs 43-105) and the order in
    which they run (analysis.rs 56-122).

    Simplifications.
    - A declaration is its attributes and the relations it is about, with the number of their arguments; types
      of arguments and bodies of rules are left out.
    - Values of attributes are strings, integers, other constants or lists; locations are left out.
    - Maps are lists of pairs. The check of arities takes the number of arguments that type inference found. *)
From Coq Require Import List ZArith Bool String Ascii.
Import ListNotations.
Set Implicit Arguments.
Local Open Scope string_scope.

(** ** Declarations *)
Inductive aval := AStr (s : string) | AInt (z : Z) | AConst | AList.
Record attr := mkAttr { a_name : string; a_pos : list aval; a_kw : list (string * aval) }.
(** type_decl.rs 63-75: [Some true] is [bound], [Some false] is [free] *)
Record rtype := mkRt { rt_pred : string; rt_args : list (option bool) }.
(** rule.rs 34-47 *)
Inductive rhead := HAtom (p : string) (n : nat) | HConj (l : list (string * nat)) | HDisj (l : list (string * nat)).
Definition head_preds (h : rhead) : list string :=
  match h with HAtom p _ => [p] | HConj l | HDisj l => map fst l end.
Inductive aitem :=
| IType (ats : list attr) (rs : list rtype)
| IRule (ats : list attr) (h : rhead)
| IFacts (ats : list attr) (p : string)
| IQuery (ats : list attr) (p : string).
(** attr.rs 194-203 *)
Definition find_attr (n : string) (l : list attr) : option attr := find (fun a => String.eqb (a_name a) n) l.
Definition has_attr (n : string) (l : list attr) : bool := match find_attr n l with Some _ => true | None => false end.
Fixpoint slookup (A : Type) (l : list (string * A)) (k : string) : option A :=
  match l with [] => None | (j, a) :: l => if String.eqb j k then Some a else slookup l k end.

(** ** Transformations *)
(** type_decl.rs 87-100 *)
Definition has_adornment (r : rtype) : bool := existsb (fun o => match o with Some _ => true | None => false end) (rt_args r).
Definition demand_of (r : rtype) : string :=
  fold_right (fun o s => String (match o with Some true => "b" | _ => "f" end)%char s) EmptyString (rt_args r).
(** desugar_arg_type_anno.rs 16-22 *)
Definition demand_attr (r : rtype) : attr := mkAttr "demand" [AStr (demand_of r)] [].
(** desugar_arg_type_anno.rs 43-61; the items it generates (24-41) are never added to the program (transform.rs
    84-104 adds those of four other transformations) *)
Definition adorn_item (i : aitem) : aitem :=
  match i with
  | IType ats rs =>
      if has_attr "demand" ats then i
      else match rs with
           | [r] => if has_adornment r then IType (ats ++ [demand_attr r]) [r] else i
           | _ => IType ats (filter (fun r => negb (has_adornment r)) rs)
           end
  | _ => i
  end.
(** conjunctive_head.rs 19-57: one rule for each atom, without attributes *)
Definition conj_items (i : aitem) : list aitem :=
  match i with IRule _ (HConj l) => map (fun x => IRule [] (HAtom (fst x) (snd x))) l | _ => [] end.
Definition is_conj (i : aitem) : bool := match i with IRule _ (HConj _) => true | _ => false end.
(** transform.rs 43-105, the two transformations above *)
Definition transform (items : list aitem) : list aitem :=
  filter (fun i => negb (is_conj i)) (map adorn_item items) ++ flat_map conj_items items.

(** ** Errors *)
Inductive aerr :=
| EDemandNum (p : string) | EDemandType | EDemandPattern | EDemandConflict (p : string) | EDemandDisj (p : string) | EDemandArity (p : string)
| EGoalMany | EGoalArity (p : string) | EGoalHead
| ESchedName (s : string) | ESchedType | ESchedNum | ESchedTwice (p : string)
| EFileExt | EFileArg | EFileNum.

(** ** Demand (demand_attr.rs) *)
(** 155-157 *)
Fixpoint valid_pattern (s : string) : bool :=
  match s with
  | EmptyString => true
  | String c s => (Ascii.eqb c "b" || Ascii.eqb c "f") && valid_pattern s
  end.
Record dstate := mkD { d_pats : list (string * string); d_disj : list string; d_errs : list aerr }.
Definition d_err (e : aerr) (st : dstate) : dstate := mkD (d_pats st) (d_disj st) (d_errs st ++ [e]).
(** 44-56 *)
Definition set_disjunctive (p : string) (st : dstate) : dstate :=
  match slookup (d_pats st) p with
  | Some _ => d_err (EDemandDisj p) st
  | None => mkD (d_pats st) (p :: d_disj st) (d_errs st)
  end.
(** 58-110 *)
Definition process_attribute (p : string) (st : dstate) (a : attr) : dstate :=
  let st := if existsb (String.eqb p) (d_disj st) then d_err (EDemandDisj p) st else st in
  if String.eqb (a_name a) "demand" then
    match a_pos a with
    | [AStr s] =>
        if valid_pattern s then
          match slookup (d_pats st) p with
          | Some s' => if String.eqb s' s then st else d_err (EDemandConflict p) st
          | None => mkD ((p, s) :: d_pats st) (d_disj st) (d_errs st)
          end
        else d_err EDemandPattern st
    | [_] => d_err EDemandType st
    | _ => d_err (EDemandNum p) st
    end
  else st.
(** 119-142; after the first predicate of a disjunctive head the visit returns *)
Definition demand_visit (st : dstate) (i : aitem) : dstate :=
  match i with
  | IType ats rs => fold_left (fun st r => fold_left (process_attribute (rt_pred r)) ats st) rs st
  | IRule ats (HDisj ((p, _) :: _)) => set_disjunctive p st
  | IRule ats (HAtom p _) => fold_left (process_attribute p) ats st
  | _ => st
  end.
(** 27-42 *)
Definition check_arity (arity : string -> option nat) (st : dstate) : list aerr :=
  flat_map (fun x => match arity (fst x) with
                     | Some n => if Nat.eqb (String.length (snd x)) n then [] else [EDemandArity (fst x)]
                     | None => []
                     end) (d_pats st).
Definition demand_analysis (items : list aitem) : dstate := fold_left demand_visit items (mkD [] [] []).

(** ** Goals (goal_relation.rs) *)
Record gstate := mkG { g_goals : list string; g_errs : list aerr }.
Definition add_goal (st : gstate) (p : string) (n : nat) : gstate :=
  if Nat.eqb n 0 then mkG (if existsb (String.eqb p) (g_goals st) then g_goals st else p :: g_goals st) (g_errs st)
  else mkG (g_goals st) (g_errs st ++ [EGoalArity p]).
(** 65-104 *)
Definition goal_visit (st : gstate) (i : aitem) : gstate :=
  match i with
  | IRule ats h =>
      if has_attr "goal" ats then
        match h with
        | HAtom p n => add_goal st p n
        | _ => mkG (g_goals st) (g_errs st ++ [EGoalHead])
        end
      else st
  | IType ats rs => if has_attr "goal" ats then fold_left (fun st r => add_goal st (rt_pred r) (List.length (rt_args r))) rs st else st
  | _ => st
  end.
Definition goal_analysis (items : list aitem) : gstate := fold_left goal_visit items (mkG [] []).
(** 27-47 *)
Definition goal_errors (st : gstate) : list aerr :=
  g_errs st ++ (if Nat.ltb 1 (List.length (g_goals st)) then [EGoalMany] else []).

(** ** Hidden relations (hidden_relation.rs 20-54) *)
Definition item_attrs (i : aitem) : list attr := match i with IType a _ | IRule a _ | IFacts a _ | IQuery a _ => a end.
Definition hidden_visit (l : list string) (i : aitem) : list string :=
  if has_attr "hidden" (item_attrs i) then
    match i with
    | IType _ rs => map rt_pred rs ++ l
    | IRule _ h => head_preds h ++ l
    | IFacts _ p => p :: l
    | IQuery _ _ => l
    end
  else l.
Definition hidden_analysis (items : list aitem) : list string := fold_left hidden_visit items [].

(** ** Schedulers (scheduler_attr.rs) *)
Inductive sched := SLfp | SDfs | SAstar | SBeam (n : Z).
(** [as usize] of an [i64] *)
Definition as_usize (z : Z) : Z := (z mod 2 ^ 64)%Z.
(** 24-61 *)
Definition parse_sched (a : attr) : aerr + sched :=
  match a_pos a with
  | [] => inl ESchedNum
  | AStr s :: _ =>
      if String.eqb s "lfp" then inr SLfp
      else if String.eqb s "dfs" then inr SDfs
      else if String.eqb s "astar" then inr SAstar
      else if String.eqb s "beam" then
        inr (SBeam (match slookup (a_kw a) "beam_size" with Some (AInt z) => as_usize z | _ => 3%Z end))
      else inl (ESchedName s)
  | _ => inl ESchedType
  end.
Record sstate := mkS { s_map : list (string * sched); s_errs : list aerr }.
(** the loops of 67-78 and 84-98: stop at the first relation that has a scheduler *)
Fixpoint set_scheds (c : sched) (ps : list string) (st : sstate) : sstate :=
  match ps with
  | [] => st
  | p :: ps =>
      match slookup (s_map st) p with
      | Some _ => mkS (s_map st) (s_errs st ++ [ESchedTwice p])
      | None => set_scheds c ps (mkS ((p, c) :: s_map st) (s_errs st))
      end
  end.
Definition sched_visit (st : sstate) (i : aitem) : sstate :=
  let go ats ps := match find_attr "scheduler" ats with
                   | None => st
                   | Some a => match parse_sched a with
                               | inl e => mkS (s_map st) (s_errs st ++ [e])
                               | inr c => set_scheds c ps st
                               end
                   end in
  match i with
  | IRule ats h => go ats (head_preds h)
  | IType ats rs => go ats (map rt_pred rs)
  | _ => st
  end.
Definition sched_analysis (items : list aitem) : sstate := fold_left sched_visit items (mkS [] []).

(** ** Output files (output_files.rs 52-103); paths are given with their extension *)
Section Files.
  Variable ext : string -> option string.
  Definition parse_file (a : attr) : aerr + string :=
    match a_pos a with
    | [] => inl EFileNum
    | AStr s :: _ => match ext s with
                     | Some e => if String.eqb e "csv" then inr s else inl EFileExt
                     | None => inl EFileExt
                     end
    | _ => inl EFileArg
    end.
  Record fstate := mkF { f_map : list (string * string); f_errs : list aerr }.
  Definition file_visit (st : fstate) (i : aitem) : fstate :=
    match i with
    | IQuery ats p =>
        match find_attr "file" ats with
        | None => st
        | Some a => match parse_file a with
                    | inl e => mkF (f_map st) (f_errs st ++ [e])
                    | inr f => mkF ((p, f) :: f_map st) (f_errs st)
                    end
        end
    | _ => st
    end.
  Definition file_analysis (items : list aitem) : fstate := fold_left file_visit items (mkF [] []).

  (** ** Everything: analysis.rs 56-122. Hidden relations, schedulers and files are found before the
      transformations, goals and demand after; the errors of output files are not dumped (103-121). *)
  Record result := mkRes {
    r_hidden : list string; r_sched : list (string * sched); r_file : list (string * string);
    r_goals : list string; r_demand : list (string * string); r_errors : list aerr }.
  Definition analyse (arity : string -> option nat) (items : list aitem) : result :=
    let s := sched_analysis items in
    let t := transform items in
    let g := goal_analysis t in
    let d := demand_analysis t in
    mkRes (hidden_analysis items) (s_map s) (f_map (file_analysis items)) (g_goals g) (d_pats d)
      (goal_errors g ++ s_errs s ++ d_errs d ++ check_arity arity d).
End Files.
