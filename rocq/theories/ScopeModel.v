(** Model of how function objects name, create, share and list their TensorFlow
    variables: safe_learning/functions.py lines 32-82 ([Function]), 125-195
    ([AddedFunction], [MultipliedFunction]), 323-352 ([Saturation]), 1397-1420
    ([Triangulation]), 1695-1727 ([NeuralNetwork]); [use_parent_scope] in
    safe_learning/utilities.py lines 113-120.

    What TensorFlow 1.x does is modelled as far as it matters for names:
    - [graph.unique_name] counts names in use and appends [_k];
    - [tf.name_scope(n)] opens the unique name of [n] below the open name scope;
    - [tf.variable_scope(n)] does so too and appends [n] to the name of the open
      variable scope; with a string that ends in [/] it re-enters a name scope;
    - [tf.get_variable(w)] creates or, in reuse mode, looks up the variable with the
      name of the open variable scope, [/] and [w];
    - [tf.Variable(name=w)] creates a variable named after the open name scope;
    - [tf.make_template] with [create_scope_now_] fixes the variable scope of all later
      calls; the first successful call creates, later ones reuse;
    - [tf.get_collection(scope=s)] keeps the variables whose names match the regular
      expression [s] at the start ([re.match]).

    Simplifications.  Names are non-empty, consist of characters that TensorFlow
    accepts (so that the dot is the only special character of regular expressions) and do
    not end in [/].  The suffix [:0] of names of variables is left out.  A template
    gets the scope it asks for; TensorFlow appends a number if this variable scope is
    open.  Exceptions while a function is built end the program. *)
From Coq Require Import List Ascii String Arith Bool DecimalString.
From Verif Require Import Prelude.
Import ListNotations.

Definition name : Type := list ascii.
Definition of_string (s : string) : name := list_ascii_of_string s.
Definition slash : name := ["/"%char].
Definition name_eqb (a b : name) : bool := if list_eq_dec ascii_dec a b then true else false.
Definition decimal (k : nat) : name := of_string (NilEmpty.string_of_uint (Nat.to_uint k)).
Definition numbered (n : name) (k : nat) : name := n ++ "_"%char :: decimal k.

(** [if self._name_stack: name = self._name_stack + "/" + name] *)
Definition below (scope n : name) : name := match scope with [] => n | _ => scope ++ slash ++ n end.

(** [_names_in_use], a dictionary; the first pair with a key counts. *)
Fixpoint get (d : list (name * nat)) (n : name) : option nat :=
  match d with
  | [] => None
  | (k, v) :: d => if name_eqb k n then Some v else get d n
  end.
Definition in_use (d : list (name * nat)) (n : name) : bool :=
  match get d n with Some _ => true | None => false end.

(** [Graph.unique_name] *)
Definition unique_name (d : list (name * nat)) (n : name) : name * list (name * nat) :=
  match get d n with
  | None => (n, (n, 1) :: d)
  | Some i =>
      let d' := (n, S i) :: d in
      match find (fun c => negb (in_use d' c)) (map (numbered n) (seq i (S (List.length d')))) with
      | Some c => (c, (c, 1) :: d')
      | None => (n, d')
      end
  end.

(** [re.match(scope, name)] for scopes whose only special character is the dot. *)
Fixpoint re_match (p s : name) : bool :=
  match p, s with
  | [], _ => true
  | c :: p, d :: s => (Ascii.eqb c "."%char || Ascii.eqb c d) && re_match p s
  | _ :: _, [] => false
  end.

(** The objects.  [Network ws] stands for functions without variables of their own from
    the constructor on whose evaluation asks for the variables [ws] ([NeuralNetwork],
    [LyapunovNetwork], [RBFNetwork]; with [ws = []] constants, linear systems and
    quadratic functions); [Sum] for [AddedFunction] and [MultipliedFunction].  Objects are referred to by
    their number. *)
Inductive kind : Type :=
| Network (ws : list name)
| Triang
| Sum (a b : nat)
| Saturated (a : nat).

Record obj : Type := Obj {
  o_kind : kind;
  o_scope : name;       (* original_name_scope *)
  o_template : name;    (* the variable scope of the template *)
  o_created : bool      (* _variables_created *)
}.

Record state : Type := State {
  names : list (name * nat);
  variables : list name;           (* TRAINABLE_VARIABLES; variables are numbered *)
  var_store : list (name * nat);   (* of get_variable *)
  name_scope : name;
  variable_scope : name;
  outer : list (name * name);      (* the scopes around the open ones *)
  objs : list obj
}.
Definition start : state := State [] [] [] [] [] [] [].

Definition set_names st d := State d (variables st) (var_store st) (name_scope st) (variable_scope st) (outer st) (objs st).
Definition set_objs st l := State (names st) (variables st) (var_store st) (name_scope st) (variable_scope st) (outer st) l.

(** functions.py lines 56-61: [tf.get_collection(TRAINABLE_VARIABLES, scope=...)] *)
Definition collection (st : state) (scope : name) : list nat :=
  filter (fun v => re_match scope (nth v (variables st) [])) (seq 0 (List.length (variables st))).

(** A new variable with the unique version of the name [n]; [key] is its name in the
    store of [get_variable], if it is there. *)
Definition add_variable (st : state) (n : name) (key : option name) : nat * state :=
  let '(u, d) := unique_name (names st) n in
  let v := List.length (variables st) in
  (v, State d (variables st ++ [u])
        (match key with Some k => (k, v) :: var_store st | None => var_store st end)
        (name_scope st) (variable_scope st) (outer st) (objs st)).

Fixpoint get_variables (st : state) (scope : name) (reuse : bool) (ws : list name) : res (list nat * state) :=
  match ws with
  | [] => Ok ([], st)
  | w :: ws =>
      let full := scope ++ slash ++ w in
      do r <- match get (var_store st) full, reuse with
              | Some v, true => Ok (v, st)
              | None, false => Ok (add_variable st full (Some full))
              | _, _ => Err ValueError
              end;
      do rs <- get_variables (snd r) scope reuse ws;
      Ok (fst r :: fst rs, snd rs)
  end.

(** [scope_name]: functions.py lines 53-54; of a saturation, lines 339-342, that of the function. *)
Fixpoint scope_name (fuel : nat) (st : state) (i : nat) : res name :=
  match fuel with
  | O => Err OtherError
  | S fuel =>
      match nth_error (objs st) i with
      | None => Err IndexError
      | Some o => match o_kind o with Saturated a => scope_name fuel st a | _ => Ok (o_scope o) end
      end
  end.

(** [parameters]: functions.py lines 56-61, 147-149 and 182-184. *)
Fixpoint parameters_of (fuel : nat) (st : state) (i : nat) : res (list nat) :=
  match fuel with
  | O => Err OtherError
  | S fuel =>
      match nth_error (objs st) i with
      | None => Err IndexError
      | Some o =>
          match o_kind o with
          | Sum a b => do p <- parameters_of fuel st a; do q <- parameters_of fuel st b; Ok (p ++ q)
          | _ => do s <- scope_name (S fuel) st i; Ok (collection st s)
          end
      end
  end.
Definition parameters (st : state) (i : nat) : res (list nat) := parameters_of (S i) st i.

Definition set_created (st : state) (i : nat) : state :=
  match nth_error (objs st) i with
  | None => st
  | Some o => set_objs st (set_nth i (Obj (o_kind o) (o_scope o) (o_template o) true) (objs st))
  end.

(** Evaluating object [i]; the result is the list of variables that it uses.  [None]: by
    [__call__] (functions.py lines 63-82); [Some (scope, reuse)]: by [build_evaluation] in the
    variable scope [scope], as [Saturation] does with its function (line 351). *)
Fixpoint run (fuel : nat) (st : state) (i : nat) (within : option (name * bool)) : res (list nat * state) :=
  match fuel with
  | O => Err OtherError
  | S fuel =>
      match nth_error (objs st) i with
      | None => Err IndexError
      | Some o =>
          let build st scope reuse :=
            match o_kind o with
            | Network ws => get_variables st scope reuse ws
            | Triang =>                             (* line 1494: self.parameters[0] *)
                match collection st (o_scope o) with
                | v :: _ => Ok ([v], st)
                | [] => Err IndexError
                end
            | Sum a b =>                            (* functions.py lines 159 and 195 *)
                do r <- run fuel st a None;
                do s <- run fuel (snd r) b None;
                Ok (fst r ++ fst s, snd s)
            | Saturated a => run fuel st a (Some (scope, reuse))
            end in
          match within with
          | Some (scope, reuse) => build st scope reuse
          | None =>
              let st := set_names st (snd (unique_name (names st) (o_scope o ++ of_string "evaluate"))) in
              do r <- build st (o_template o) (o_created o);
              Ok (fst r, set_created (snd r) i)
          end
      end
  end.
Definition call (st : state) (i : nat) : res (list nat * state) := run (S i) st i None.

(** What a program does that matters here: creating objects (functions.py lines 38-51), calling them,
    opening and closing scopes, and adding operations to the graph. *)
Inductive command : Type :=
| New (n : name) (k : kind)
| Call (i : nat)
| EnterName (n : name)       (* with tf.name_scope(n): *)
| EnterVariable (n : name)   (* with tf.variable_scope(n): *)
| Leave
| Operation (n : name).      (* an operation with the full name n *)

(** Sums take any functions; saturations need [input_dim], functions.py lines 329-330. *)
Definition check_kind (st : state) (k : kind) : res unit :=
  match k with
  | Network _ | Triang => Ok tt
  | Sum a b => if (a <? List.length (objs st)) && (b <? List.length (objs st)) then Ok tt else Err NameError
  | Saturated a =>
      match nth_error (objs st) a with
      | None => Err NameError
      | Some o => match o_kind o with Sum _ _ => Err AttributeError | _ => Ok tt end
      end
  end.

Definition new (st : state) (n : name) (k : kind) : res state :=
  do _ <- check_kind st k;
  let '(u, d) := unique_name (names st) (below (name_scope st) n) in
  let scope := u ++ slash in
  let st := set_names st d in
  let st := set_objs st (objs st ++ [Obj k scope (below (variable_scope st) scope) false]) in
  match k with
  | Triang => Ok (snd (add_variable st (scope ++ of_string "vertex_values") None))
  | _ => Ok st
  end.

Definition step (st : state) (c : command) : res state :=
  match c with
  | New n k => new st n k
  | Call i => do r <- call st i; Ok (snd r)
  | EnterName n =>
      let '(u, d) := unique_name (names st) (below (name_scope st) n) in
      Ok (State d (variables st) (var_store st) u (variable_scope st)
            ((name_scope st, variable_scope st) :: outer st) (objs st))
  | EnterVariable n =>
      let '(u, d) := unique_name (names st) (below (name_scope st) n) in
      Ok (State d (variables st) (var_store st) u (below (variable_scope st) n)
            ((name_scope st, variable_scope st) :: outer st) (objs st))
  | Leave =>
      match outer st with
      | [] => Err OtherError
      | (ns, vs) :: rest => Ok (State (names st) (variables st) (var_store st) ns vs rest (objs st))
      end
  | Operation n => Ok (set_names st (snd (unique_name (names st) n)))
  end.
Fixpoint execute (st : state) (cs : list command) : res state :=
  match cs with
  | [] => Ok st
  | c :: cs => do st <- step st c; execute st cs
  end.
