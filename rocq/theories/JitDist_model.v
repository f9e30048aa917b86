(** Model of communication/jit_distributed.py l.59-97 and of the parts of
    Python's call binding it relies on (inspect.Signature.bind, BoundArguments).
    Parameters are positional-only, positional-or-keyword or keyword-only;
    *args/**kwargs parameters are not modelled. *)
From Coq Require Import List Bool Arith.
From Verif Require Import Groups_model.
Import ListNotations.

Inductive kind := PosOnly | PosOrKw | KwOnly.
(** Parameter names are numbered. *)
Definition name := nat.

Section Jit.
Context {V : Type}.
Record param := Param { p_name : name; p_kind : kind; p_default : option V }.

Definition lookup (x : name) (l : list (name * V)) : option V :=
  option_map snd (find (fun kv => fst kv =? x) l).
Definition mem (x : name) (l : list name) : bool := existsb (Nat.eqb x) l.

(** Value of each parameter, in signature order; [None] is Python's TypeError
    (missing, repeated, unexpected or surplus argument).  Defaults filled in. *)
Fixpoint bind_go (ps : list param) (args : list V) (kw : list (name * V)) : option (list (name * V)) :=
  match ps with
  | [] => match args with [] => Some [] | _ => None end
  | p :: ps' =>
      let x := p_name p in
      let continue_ args' v := option_map (cons (x, v)) (bind_go ps' args' kw) in
      let by_default := match p_default p with Some v => continue_ args v | None => None end in
      match p_kind p with
      | PosOnly =>
          match args with
          | v :: args' => continue_ args' v
          | [] => by_default
          end
      | PosOrKw =>
          match args, lookup x kw with
          | v :: args', None => continue_ args' v
          | _ :: _, Some _ => None
          | [], Some v => continue_ [] v
          | [], None => by_default
          end
      | KwOnly =>
          match args, lookup x kw with
          | _ :: _, _ => None
          | [], Some v => continue_ [] v
          | [], None => by_default
          end
      end
  end.
(** Keywords must name a parameter that accepts keywords. *)
Definition accepts_kw (ps : list param) (x : name) : bool :=
  existsb (fun p => (p_name p =? x) && match p_kind p with PosOnly => false | _ => true end) ps.
Definition bind (ps : list param) (args : list V) (kw : list (name * V)) : option (list (name * V)) :=
  if forallb (fun kv => accepts_kw ps (fst kv)) kw then bind_go ps args kw else None.

(** [BoundArguments.args]: stops at the first keyword-only or missing parameter. *)
Fixpoint ba_args (ps : list param) (env : list (name * V)) : list V :=
  match ps with
  | [] => []
  | p :: ps' =>
      match p_kind p with
      | KwOnly => []
      | _ => match lookup (p_name p) env with None => [] | Some v => v :: ba_args ps' env end
      end
  end.
(** [BoundArguments.kwargs]: everything from there on. *)
Fixpoint ba_kwargs (started : bool) (ps : list param) (env : list (name * V)) : list (name * V) :=
  match ps with
  | [] => []
  | p :: ps' =>
      let here := lookup (p_name p) env in
      let started' := started || match p_kind p with KwOnly => true | _ => match here with None => true | Some _ => false end end in
      match here with
      | Some v => if started' then (p_name p, v) :: ba_kwargs started' ps' env else ba_kwargs started' ps' env
      | None => ba_kwargs started' ps' env
      end
  end.

(** local [bind], l.60-67: bind, apply defaults, keep [argnames]. *)
Definition sub_bind (keep : name -> bool) (env : list (name * V)) : list (name * V) :=
  filter (fun kv => keep (fst kv)) env.

(** l.69-72: default static names are the keyword-only parameters. *)
Definition static_names (ps : list param) (static : option (list name)) : list name :=
  match static with
  | Some l => l
  | None => map p_name (filter (fun p => match p_kind p with KwOnly => true | _ => false end) ps)
  end.

(** [pmapped], l.82-97, on device [d]: the environment with which f's body runs,
    or [None] for a TypeError.  [slice d v] is the device's part of a sharded
    value: shard_map splits the leading axis and vmap removes it.
    [shmap_kwargs]: whether the installed shard_map accepts keyword arguments. *)
Variable slice : nat -> V -> V.
Definition pmapped (shmap_kwargs : bool) (ps : list param) (static : option (list name)) (d : nat)
  (args : list V) (kw : list (name * V)) : option (list (name * V)) :=
  let st := static_names ps static in
  match bind ps args kw with
  | None => None
  | Some env =>
      let nonsharded := sub_bind (fun x => mem x st) env in
      let sharded := sub_bind (fun x => mem x (map p_name ps) && negb (mem x st)) env in
      let na := ba_args ps nonsharded in let nk := ba_kwargs false ps nonsharded in
      let sa := map (slice d) (ba_args ps sharded) in
      let sk := map (fun kv => (fst kv, slice d (snd kv))) (ba_kwargs false ps sharded) in
      match sa, sk with
      | [], [] => bind ps na nk                       (* l.92-97 *)
      | _, _ =>                                       (* l.90-91 *)
          if negb shmap_kwargs && negb (match sk with [] => true | _ => false end) then None
          else bind ps (na ++ sa) (filter (fun kv => negb (mem (fst kv) (map fst sk))) nk ++ sk)
      end
  end.
End Jit.
Arguments param : clear implicits.
