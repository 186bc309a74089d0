(** Which objects a Result shares with the experiment it was computed from
    (src/elli/solver.py, src/elli/experiment.py, src/elli/result.py).  Objects (experiments,
    structures, layers, materials, dispersions, parameter dictionaries, numpy arrays, lists) live in
    a heap and refer to one another; D is the type of the plain data.  What a solver computes is
    arbitrary. *)
From Coq Require Import String List Arith.
From Verif.Base Require Import Py.
Import ListNotations.
Open Scope string_scope.
Open Scope list_scope.

Section Heap.
Variable D : Type.

Inductive val := Leaf (d : D) | Ref (a : nat).
Definition node := list (string * val).
Definition heap := list node.

Definition get (h : heap) (a : nat) (k : string) : option val :=
  match find (fun f => fst f =? k) (nth a h []) with Some f => Some (snd f) | None => None end.

(** Assigning an attribute or an element *)
Fixpoint set_node (n : node) (k : string) (v : val) : node :=
  match n with
  | [] => [(k, v)]
  | f :: n' => if fst f =? k then (k, v) :: n' else f :: set_node n' k v
  end.

Fixpoint set (h : heap) (a : nat) (k : string) (v : val) : heap :=
  match h, a with
  | [], _ => []
  | n :: h', O => set_node n k v :: h'
  | n :: h', S a' => n :: set h' a' k v
  end.

(** x.k1.k2...kn, if this is plain data *)
Fixpoint read (h : heap) (a : nat) (path : list string) : option D :=
  match path with
  | [] => None
  | k :: p =>
      match get h a k with
      | Some (Leaf d) => match p with [] => Some d | _ => None end
      | Some (Ref b) => read h b p
      | None => None
      end
  end.

Definition shift_val (n : nat) (v : val) : val := match v with Leaf d => Leaf d | Ref a => Ref (n + a) end.
Definition shift_node (n : nat) (nd : node) : node := map (fun f => (fst f, shift_val n (snd f))) nd.

(** copy.deepcopy (solver.py:30).  Simplified: all objects of the heap are copied, with the sharing
    among them, and not only those reachable from the argument; the others cannot be observed.
    Functions are plain data (deepcopy does not copy them). *)
Definition deepcopy (h : heap) (a : nat) : heap * nat :=
  (h ++ map (shift_node (length h)) h, length h + a).

(** What a solver computes from the experiment: jones_matrix_r, jones_matrix_t, power_correction *)
Variable solve : heap -> nat -> D * D * D.
Variable default_range : D.

(** experiment.py:151-163 evaluate, solver.py:29-35 Solver.__init__, result.py:344-368
    Result.__init__ (called by solver2x2.py and solver4x4.py with the copied experiment). *)
Definition evaluate (h : heap) (exp : nat) : heap * nat :=
  let (h1, exp1) := deepcopy h exp in
  let '(jr, jt, pc) := solve h1 exp1 in
  (h1 ++ [[("experiment", Ref exp1); ("_jones_matrix_r", Leaf jr); ("_jones_matrix_t", Leaf jt);
           ("_delta_range", Leaf default_range); ("_power_correction", Leaf pc)]], length h1).

(** result.py:441-455 as_delta_range: changes the object and returns it *)
Definition as_delta_range (h : heap) (r : nat) (range : D) : heap * nat :=
  (set h r "_delta_range" (Leaf range), r).

(** What a program can do afterwards: create objects, assign attributes or elements of objects,
    evaluate experiments *)
Inductive op := New (n : node) | Set_ (a : nat) (k : string) (v : val) | Evaluate (e : nat).

Definition step (h : heap) (o : op) : heap :=
  match o with
  | New n => h ++ [n]
  | Set_ a k v => set h a k v
  | Evaluate e => fst (evaluate h e)
  end.

Definition run (h : heap) (ops : list op) : heap := fold_left step ops h.
End Heap.

Arguments Leaf {D}.
Arguments Ref {D}.
Arguments get {D}.
Arguments set {D}.
Arguments read {D}.
Arguments deepcopy {D}.
Arguments evaluate {D}.
Arguments as_delta_range {D}.
Arguments New {D}.
Arguments Set_ {D}.
Arguments Evaluate {D}.
Arguments step {D}.
Arguments run {D}.
Arguments shift_node {D}.
Arguments shift_val {D}.
