(** Model of evaluation and differentiation as sequences of accesses to shared memory, and
    of several threads doing so at the same time.  Citations are relative to
    /repo/include/wave/geometry/src.

    ModelDyn.v gives each call as one step.  Here a call is a program whose elementary
    steps are the accesses to what threads share: values of leaf objects, and the
    lazy_evaluator member of Dynamic objects (dynamic/Dynamic.hpp 119-120), which is
    mutable and is changed by const functions.  Expression objects and proxies are
    constants here: no thread rebinds, constructs or destroys one while others run.
    An access to a whole leaf value or to a whole cached evaluator is one step; a
    data race is two threads about to make conflicting accesses. *)

From Coq Require Import Reals List Arith Bool.
From Verif Require Import Mat ModelMeta ModelJac ModelLeaf ModelExpr ModelDyn.
Import ListNotations.

(** What is shared: values of leaf objects and evaluators cached by Dynamic objects. *)
Inductive loc := Leaf (a : nat) | Evaluator (d : nat).
Record mem := Mem { mvals : env; mcache : nat -> option (value * etree) }.
Record access := Acc { where_ : loc; writes : bool }.

(** A program with result [A]: its next access and what it does with the outcome.
    [Fail]: no evaluation is defined (it does not compile, or the result is not a number),
    or an evaluator is read that has been destroyed and not constructed again. *)
Inductive prog (A : Type) :=
| Ret (r : A)
| Fail
| Read (a : nat) (k : value -> prog A)
| Fetch (d : nat) (k : option (value * etree) -> prog A)
| Store (d : nat) (c : option (value * etree)) (p : prog A)
| Assign (a : nat) (v : value) (p : prog A).
Arguments Ret {A}. Arguments Fail {A}. Arguments Read {A}. Arguments Fetch {A}.
Arguments Store {A}. Arguments Assign {A}.

Fixpoint bind {A B} (p : prog A) (k : A -> prog B) : prog B :=
  match p with
  | Ret r => k r
  | Fail => Fail
  | Read a h => Read a (fun v => bind (h v) k)
  | Fetch d h => Fetch d (fun c => bind (h c) k)
  | Store d c p => Store d c (bind p k)
  | Assign a v p => Assign a v (bind p k)
  end.

(** evaluateTo<Leaf>: functions/PrepareOutput.hpp 39-71, 108-121, for an expression object. *)
Definition prepared_to (f : nat) (s : state) (l : lty) (n : node) : option expr :=
  match outline f s n with
  | Some e => option_map fst (prepare_to (Plain l) e)
  | None => None
  end.
Definition node_evalTo (eps : R) (na : nat) (f : nat) (s : state) (l : lty) (n : node)
    : option (value * state) :=
  match prepared_to f s l n with
  | Some p =>
      match ev eps na (dynEvaluate eps na f) s p with
      | Some (v, _, s') => Some (v, s')
      | None => None
      end
  | None => None
  end.

Section Programs.
  Variable eps : R.
  Variable na : nat.
  (** Only the objects of this state are used. *)
  Variable s : state.

  (** functions/Evaluator.hpp 28-105, Proxy.hpp 95-110, as in [ModelDyn.ev]. *)
  Fixpoint pev (dynev : nat -> prog value) (p : expr) : prog (value * etree) :=
    match p with
    | XLeaf a t =>
        if is_dyn s a then bind (dynev a) (fun v => Ret (v, ELeaf (leaf_obj a t)))
        else Read a (fun v => Ret (v, ELeaf (leaf_obj a t)))
    | XUn o p =>
        bind (pev dynev p) (fun x => let (v, c) := x in
          match sem_un eps o v with
          | Some val =>
              Ret (val, EUn na (vdim val) (orzero (jac_un eps o val v) (vdim val) (vdim v)) c)
          | None => Fail
          end)
    | XBin o l r =>
        bind (pev dynev l) (fun x => let (a, cl) := x in
        bind (pev dynev r) (fun y => let (b, cr) := y in
          match sem_bin o a b with
          | Some val =>
              Ret (val, EBin na (vdim val)
                          (orzero (jac_l o val a b) (vdim val) (vdim a))
                          (orzero (jac_r o val a b) (vdim val) (vdim b)) cl cr)
          | None => Fail
          end))
    end.

  (** Dynamic.hpp 39-45, 59-62: boost::optional::emplace destroys the evaluator, constructs
      the new one in its place (evaluating the operand) and marks it present; then the
      result is read from it. *)
  Fixpoint pdyn (f : nat) (d : nat) : prog value :=
    match f with
    | 0%nat => Fail
    | S f =>
        match objs s d with
        | Some (ODyn n _) =>
            match outline f s n with
            | Some e =>
                match prepare e with
                | Some (p, _) =>
                    Store d None
                      (bind (pev (pdyn f) p) (fun x =>
                         Store d (Some x)
                           (Fetch d (fun c => match c with
                                              | Some (v, _) => Ret v
                                              | None => Fail
                                              end))))
                | None => Fail
                end
            | None => Fail
            end
        | _ => Fail
        end
    end.

  (** Dynamic.hpp 47-52. *)
  Definition pevaluator (f : nat) (d : nat) : prog (value * etree) :=
    Fetch d (fun c =>
      match c with
      | Some x => Ret x
      | None => bind (pdyn f d) (fun _ =>
                  Fetch d (fun c => match c with Some x => Ret x | None => Fail end))
      end).

  (** functions/DynamicJacobianEvaluator.hpp 22-248, Proxy.hpp 112-135, Dynamic.hpp 64-69. *)
  Fixpoint pdjac (dj : nat -> prog mat) (t : nat) (T : etree) : prog mat :=
    match T with
    | ELeaf l =>
        if is_dyn s (l_addr l) then
          if (l_addr l =? t)%nat then Ret (mid (l_dim l)) else dj (l_addr l)
        else Ret (if (l_addr l =? t)%nat then mid (l_dim l) else mempty)
    | EUn a n J c =>
        if (a =? t)%nat then Ret (mid n)
        else bind (pdjac dj t c) (fun jc => Ret (if nonempty jc then mmul J jc else mempty))
    | EBin a n JL JR l r =>
        if (a =? t)%nat then Ret (mid n)
        else bind (pdjac dj t l) (fun jl => bind (pdjac dj t r) (fun jr =>
               Ret (if nonempty jl && nonempty jr then madd (mmul JL jl) (mmul JR jr)
                    else if nonempty jl then mmul JL jl
                    else if nonempty jr then mmul JR jr
                    else mempty)))
    end.
  Fixpoint pdynJacobian (f : nat) (t : nat) (d : nat) : prog mat :=
    match f with
    | 0%nat => Fail
    | S f => bind (pevaluator f d) (fun x => pdjac (pdynJacobian f t) t (snd x))
    end.

  (** functions/DynamicReverseJacobianEvaluator.hpp 73-195, Proxy.hpp 171-180, Dynamic.hpp
      72-81. *)
  Fixpoint pdrev (dr : MatrixMap -> mat -> nat -> prog MatrixMap) (m : MatrixMap) (adj : mat)
      (T : etree) : prog MatrixMap :=
    match T with
    | ELeaf l =>
        if is_dyn s (l_addr l) then dr m adj (l_addr l)
        else match mm_add m (l_addr l) adj with Some m' => Ret m' | None => Fail end
    | EUn _ _ J c => pdrev dr m (mmul adj J) c
    | EBin _ _ JL JR l r =>
        bind (pdrev dr m (mmul adj JL) l) (fun m' => pdrev dr m' (mmul adj JR) r)
    end.
  Fixpoint pdynReverse (f : nat) (m : MatrixMap) (adj : mat) (d : nat) : prog MatrixMap :=
    match f with
    | 0%nat => Fail
    | S f => bind (pevaluator f d) (fun x => pdrev (pdynReverse f) m adj (snd x))
    end.

  (** What a thread can ask for: eval() of an expression object, forward and reverse
      Jacobians (as in ModelDyn.v), and assigning an expression to the leaf object [a] of
      type [l] (core/storage/LeafStorage.hpp 46-53). *)
  Inductive query :=
  | QEval (f : nat) (n : node)
  | QForward (f : nat) (n : node) (t dim : nat)
  | QReverse (g : nat -> nat -> R) (f : nat) (n : node)
  | QAssign (a : nat) (l : lty) (f : nat) (n : node).
  Inductive answer :=
  | AValue (v : value)
  | AJacobian (v : value) (J : mat)
  | AJacobians (v : value) (m : MatrixMap)
  | AAssigned.

  Definition pnode (f : nat) (p : option expr) : prog (expr * (value * etree)) :=
    match p with
    | Some p => bind (pev (pdyn f) p) (fun x => Ret (p, x))
    | None => Fail
    end.

  (** PrepareOutput.hpp 108-121, DynamicJacobianEvaluator.hpp 262-305,
      DynamicReverseJacobianEvaluator.hpp 200-258. *)
  Definition pquery (q : query) : prog answer :=
    match q with
    | QEval f n => bind (pnode f (prepared f s n)) (fun x => Ret (AValue (fst (snd x))))
    | QForward f n t dim =>
        bind (pnode f (prepared f s n)) (fun x => let (v, T) := snd x in
        bind (pdjac (pdynJacobian f t) t T) (fun j =>
          Ret (AJacobian v (if nonempty j then j else mzero (edim T) dim))))
    | QReverse g f n =>
        bind (pnode f (prepared f s n)) (fun x => let (v, T) := snd x in
          match xleaves (dynLeaves f s) s (fst x) with
          | Some ls =>
              bind (pdrev (pdynReverse f)
                      (mm_setZero (mm_make g (sort_keys ls) (edim T))) (mid (edim T)) T)
                   (fun m => Ret (AJacobians v m))
          | None => Fail
          end)
    | QAssign a l f n =>
        bind (pnode f (prepared_to f s l n)) (fun x => Assign a (fst (snd x)) (Ret AAssigned))
    end.

  Fixpoint pthread (qs : list query) : prog (list answer) :=
    match qs with
    | [] => Ret []
    | q :: qs => bind (pquery q) (fun x => bind (pthread qs) (fun xs => Ret (x :: xs)))
    end.
End Programs.

(** ** Threads *)

Definition next {A} (p : prog A) : option access :=
  match p with
  | Ret _ | Fail => None
  | Read a _ => Some (Acc (Leaf a) false)
  | Fetch d _ => Some (Acc (Evaluator d) false)
  | Store d _ _ => Some (Acc (Evaluator d) true)
  | Assign a _ _ => Some (Acc (Leaf a) true)
  end.

(** One step of one thread; a thread that is done stays as it is. *)
Definition pstep {A} (p : prog A) (m : mem) : prog A * mem :=
  match p with
  | Ret _ | Fail => (p, m)
  | Read a k => (k (mvals m a), m)
  | Fetch d k => (k (mcache m d), m)
  | Store d c p => (p, Mem (mvals m) (setf (mcache m) d c))
  | Assign a v p => (p, Mem (setf (mvals m) a v) (mcache m))
  end.

Record config := Config { shared : mem; threads : list (prog (list answer)) }.

Fixpoint replace {A} (i : nat) (x : A) (l : list A) : list A :=
  match l, i with
  | [], _ => []
  | _ :: l, 0%nat => x :: l
  | y :: l, S i => y :: replace i x l
  end.

Definition step (i : nat) (c : config) : config :=
  match nth_error (threads c) i with
  | Some p => let (p', m') := pstep p (shared c) in Config m' (replace i p' (threads c))
  | None => c
  end.

(** A schedule says which thread makes the next step. *)
Fixpoint execute (sched : list nat) (c : config) : config :=
  match sched with
  | [] => c
  | i :: sched => execute sched (step i c)
  end.

(** The threads before their first step. *)
Definition start (eps : R) (na : nat) (s : state) (ths : list (list query)) : config :=
  Config (Mem (vals s) (cache s)) (map (pthread eps na s) ths).
