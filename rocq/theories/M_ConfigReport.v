(** * Reports about settings that cannot be read
    Model of library/cpp/include/wavemap/core/utils/print/container.h, src/core/config/string_list.cc and the log
    statements of include/wavemap/core/config/impl/config_base_inl.h ("c"). Undefined behaviour (reading the first
    element of an empty vector) is [None] or [false]. The stream operators evaluate their operands at every log level
    (simplification: glog's compile-time stripping is not modelled). Numbers as text are not modelled, they are always defined. *)
From Verif Require Import Base M_Config.
From Coq Require Import String QArith.
Close Scope Q_scope.
Open Scope Z_scope.
Open Scope list_scope.

(** print::sequence for strings, container.h:21-29: std::accumulate from the second element on, starting with sequence[0] *)
Definition print_sequence (separator : string) (l : list string) : option string :=
  match l with
  | [] => None
  | x :: r => Some (fold_left (fun str el => (str ++ separator ++ el)%string) r x)
  end.
(** StringList::toStr, string_list.cc:33-35 *)
Definition strings_toStr (l : list string) : option string := option_map (fun s => ("[" ++ s ++ "]")%string) (print_sequence ", " l).
(** c:87-98: whether the current value of a member of kind [k] can be printed. Type selectors and units always can, nested configs have no toStr
    and primitive values have a stream operator (c:69-73). *)
Definition reportable (k : kind) (current : option cvalue) : bool :=
  match k, current with
  | KStrings, Some (CStrings l) => match strings_toStr l with Some _ => true | None => false end
  | _, _ => true
  end.
Section LOAD.
Context (pi : Q).
(** c:47-153: whether reading a value of kind [k] from [v] is free of undefined behaviour. Follows [readParam] and keeps the members read so far. *)
Fixpoint load_safe (k : kind) (v : pvalue) : bool :=
  match k with
  | KConfig ms =>
      match v with
      | PMap pm =>
          snd (fold_left (fun (st : list (string * cvalue) * bool) kv =>
            let '(c, ok) := st in
            let '(pn, pv) := kv in
            if String.eqb pn kTypeSelectorKey then st else
            (fix load (l : list (string * kind * cvalue)) : list (string * cvalue) * bool :=
               match l with
               | [] => st
               | (n, mk, _) :: l' =>
                   if String.eqb n pn then
                     match readParam pi mk pv with
                     | Some x => (cset c n x, ok && load_safe mk pv)
                     | None => (c, ok && load_safe mk pv && reportable mk (mfind c n))
                     end
                   else load l'
               end) ms) pm (defaults ms, true))
      | _ => true
      end
  | _ => true
  end.
(** c:102-153 [ConfigBase::from] with its log statements; the outer [None] is undefined behaviour *)
Definition cfg_load (ms : list (string * kind * cvalue)) (p : pvalue) : option (option cvalue) :=
  if load_safe (KConfig ms) p then Some (cfg_from pi ms p) else None.
End LOAD.
