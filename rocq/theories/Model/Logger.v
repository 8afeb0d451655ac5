(** Model of src/pysr3/logger.py.

    Values are numbers (possibly +infinity), booleans, vectors, or opaque objects.
    Simplification: the dictionary is an association list (insertion order kept);
    adding vectors with += is only modelled for equal lengths; numpy's broadcasting of a
    vector with a number or a list is not modelled (it is a TypeError here). *)
From Coq Require Export String List.
From Verif.Base Require Import Py Vec.
Open Scope R_scope.

Inductive lval : Type :=
| LNum (r : R)
| LInf                      (* np.infty *)
| LBool (b : bool)
| LVec (v : vec)
| LObj (name : string).

(** what the dictionary holds under a key: a list being accumulated, or a plain value *)
Inductive lobj : Type := LList (l : list lval) | LAtom (v : lval).

(** the Python type of the collection of keys: it decides whether `keys + tuple` works *)
Inductive kind : Type := KTuple | KSet | KList.

Record logger := {
  lg_kind : kind;
  lg_keys : list string;
  lg_dict : list (string * lobj)
}.

Fixpoint lookup {V : Type} (k : string) (d : list (string * V)) : option V :=
  match d with
  | [] => None
  | (k', v) :: d' => if String.eqb k k' then Some v else lookup k d'
  end.
(** d[k] = v *)
Fixpoint dict_set {V : Type} (k : string) (v : V) (d : list (string * V)) : list (string * V) :=
  match d with
  | [] => [(k, v)]
  | (k', v') :: d' => if String.eqb k k' then (k, v) :: d' else (k', v') :: dict_set k v d'
  end.

Definition has_key (k : string) (ks : list string) : bool := existsb (String.eqb k) ks.

(** logger.py:8-18 __init__; `None` is the argument None, which is not iterable *)
Definition mk_logger (keys : option (kind * list string)) : res logger :=
  match keys with
  | None => Err TypeError
  | Some (kd, ks) =>
      Ok {| lg_kind := kd; lg_keys := ks;
            lg_dict := fold_left (fun d k => dict_set k (LList []) d) ks [] |}
  end.

(** logger.py:34-37: the loop over the keys *)
Fixpoint log_keys (ks : list string) (params : list (string * lval)) (d : list (string * lobj))
  : res (list (string * lobj)) :=
  match ks with
  | [] => Ok d
  | k :: ks' =>
      match lookup k d with
      | None => Err KeyError
      | Some (LList l) =>
          match lookup k params with
          | Some v => log_keys ks' params (dict_set k (LList (l ++ [v])) d)
          | None => log_keys ks' params d
          end
      | Some (LAtom _) => log_keys ks' params d
      end
  end.

(** logger.py:20-37 log *)
Definition log (lg : logger) (params : list (string * lval)) : res logger :=
  let! d := log_keys (lg_keys lg) params (lg_dict lg) in
  Ok {| lg_kind := lg_kind lg; lg_keys := lg_keys lg; lg_dict := d |}.

(** logger.py:39-56 add.  `self.keys + tuple([key])` is a TypeError for a set or a list;
    the dictionary has been updated by then, which the caller cannot observe in an
    uncaught exception. *)
Definition add (lg : logger) (k : string) (v : lobj) : res logger :=
  let d := dict_set k v (lg_dict lg) in
  if has_key k (lg_keys lg)
  then Ok {| lg_kind := lg_kind lg; lg_keys := lg_keys lg; lg_dict := d |}
  else match lg_kind lg with
       | KTuple => Ok {| lg_kind := KTuple; lg_keys := lg_keys lg ++ [k]; lg_dict := d |}
       | KSet | KList => Err TypeError
       end.

(** a += b on stored objects *)
Definition lnum (v : lval) : option R :=
  match v with LNum r => Some r | LBool true => Some 1 | LBool false => Some 0 | _ => None end.
Definition obj_iadd (a b : lobj) : res lobj :=
  match a, b with
  | LList l, LList m => Ok (LList (l ++ m))
  | LAtom (LVec u), LAtom (LVec v) =>
      let! _ := guard (length u =? length v)%nat ValueError in Ok (LAtom (LVec (vadd u v)))
  | LAtom u, LAtom v =>
      match lnum u, lnum v with
      | Some x, Some y => Ok (LAtom (LNum (x + y)))
      | _, _ => Err TypeError
      end
  | _, _ => Err TypeError
  end.

(** logger.py:58-74 append: self.dict[key] += value *)
Definition append (lg : logger) (k : string) (v : lobj) : res logger :=
  match lookup k (lg_dict lg) with
  | None => Err KeyError
  | Some a => let! c := obj_iadd a v in
              Ok {| lg_kind := lg_kind lg; lg_keys := lg_keys lg;
                    lg_dict := dict_set k c (lg_dict lg) |}
  end.

(** logger.py:76-89 get *)
Definition get (lg : logger) (k : string) : res lobj :=
  match lookup k (lg_dict lg) with None => Err KeyError | Some v => Ok v end.
