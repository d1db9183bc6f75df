(** Outcome of a C++ call: either it returns a value, or the process stops
    ([CHECK], [LOG(FATAL)], uncaught std::out_of_range) or behaves undefined.
    The latter cases are all [Crash]; no theorem may hide behind a default value. *)
Inductive outcome (A : Type) : Type :=
| Ok (a : A)
| Crash.
Arguments Ok {A} a.
Arguments Crash {A}.

Definition obind {A B} (o : outcome A) (f : A -> outcome B) : outcome B :=
  match o with Ok a => f a | Crash => Crash end.
Definition omap {A B} (f : A -> B) (o : outcome A) : outcome B :=
  match o with Ok a => Ok (f a) | Crash => Crash end.
Notation "'olet' x := e 'in' f" := (obind e (fun x => f))
  (at level 200, x pattern, e at level 100, f at level 200).

Lemma Ok_inj {A} (a b : A) : Ok a = Ok b -> a = b.
Proof. intros H; injection H; auto. Qed.
