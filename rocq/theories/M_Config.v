(** * Parameters, type selectors, units and configs
    Model of library/cpp/include/wavemap/core/config/{param,type_selector,value_with_unit,config_base}.h with
    impl/*_inl.h and src/core/config/value_with_unit.cc. Floats are rationals; the decimal literals of the unit
    table have their exact decimal value; kPi is a parameter. A std::map is a list of key/value pairs with
    distinct keys. Log output is not modelled. *)
From Verif Require Import Base.
From Coq Require Import String QArith.
Close Scope Q_scope.
Open Scope Z_scope.
Open Scope list_scope.

(** param.h:23-81 [ValueT] with param.h:84-88 [PrimitiveValueTypes]: the variant a parameter holds *)
Inductive pvalue := PBool (b : bool) | PInt (z : Z) | PFloat (q : Q) | PString (s : string)
  | PArray (l : list pvalue) | PMap (m : list (string * pvalue)).
(** std::map::find *)
Fixpoint mfind {A} (m : list (string * A)) (k : string) : option A :=
  match m with [] => None | (n, v) :: m' => if String.eqb n k then Some v else mfind m' k end.
(** param.h:63-70 [getChild] *)
Definition getChild (p : pvalue) (k : string) : option pvalue := match p with PMap m => mfind m k | _ => None end.
(** type_selector.h:10 [kTypeSelectorKey] *)
Definition kTypeSelectorKey : string := "type".
(** type_selector.h:18 [kInvalidTypeId] *)
Definition kInvalidTypeId : Z := -1.
(** impl/type_selector_inl.h:11-40 [getTypeStr] *)
Definition getTypeStr (p : pvalue) : option string :=
  match p with
  | PString s => Some s
  | PMap _ => match getChild p kTypeSelectorKey with Some (PString s) => Some s | _ => None end
  | _ => None
  end.
(** impl/type_selector_inl.h:75-79 [isValid(id)] *)
Definition ts_isValid (names : list string) (id : Z) : bool := (0 <=? id) && (id <? Z.of_nat (List.length names)).
(** impl/type_selector_inl.h:81-89 [toStr] *)
Definition ts_toStr (names : list string) (id : Z) : string := if ts_isValid names id then nth (Z.to_nat id) names ""%string else "Invalid"%string.
(** impl/type_selector_inl.h:91-101 [toTypeId]: loop over the name array from index k *)
Fixpoint ts_search (names : list string) (k : Z) (name : string) : Z :=
  match names with [] => kInvalidTypeId | n :: ns => if String.eqb name n then k else ts_search ns (k + 1) name end.
Definition ts_toTypeId (names : list string) (name : string) : Z := ts_search names 0 name.
(** impl/type_selector_inl.h:48-53: constructor from an id *)
Definition ts_ofId (names : list string) (id : Z) : Z := if ts_isValid names id then id else kInvalidTypeId.
(** impl/type_selector_inl.h:103-117 [from(string)] *)
Definition ts_from_name (names : list string) (name : string) : option Z :=
  let id := ts_toTypeId names name in if ts_isValid names id then Some id else None.
(** impl/type_selector_inl.h:119-132 [from(Value)] *)
Definition ts_from (names : list string) (p : pvalue) : option Z :=
  match getTypeStr p with Some n => ts_from_name names n | None => None end.
(** impl/type_selector_inl.h:134-146 [from(Value, subconfig_name)] *)
Definition ts_from_sub (names : list string) (p : pvalue) (sub : string) : option Z :=
  match getChild p sub with Some c => ts_from names c | None => None end.

(** value_with_unit.h:14 [SiUnit::Id] *)
Inductive si_unit := kMeters | kRadians | kPixels | kSeconds.
Definition si_eqb (a b : si_unit) : bool :=
  match a, b with kMeters, kMeters | kRadians, kRadians | kPixels, kPixels | kSeconds, kSeconds => true | _, _ => false end.

Section CFG.
Context (kPi : Q).
(** src/core/config/value_with_unit.cc:9-27 [UnitToSi] *)
Definition UnitToSi : list (string * (Q * si_unit)) :=
  [("meters", (1%Q, kMeters)); ("m", (1%Q, kMeters)); ("decimeters", ((1 # 10)%Q, kMeters)); ("dm", ((1 # 10)%Q, kMeters));
   ("centimeters", ((1 # 100)%Q, kMeters)); ("cm", ((1 # 100)%Q, kMeters)); ("millimeters", ((1 # 1000)%Q, kMeters)); ("mm", ((1 # 1000)%Q, kMeters));
   ("radians", (1%Q, kRadians)); ("rad", (1%Q, kRadians)); ("degrees", ((kPi / 180)%Q, kRadians)); ("deg", ((kPi / 180)%Q, kRadians));
   ("pixels", (1%Q, kPixels)); ("px", (1%Q, kPixels)); ("seconds", (1%Q, kSeconds)); ("sec", (1%Q, kSeconds)); ("s", (1%Q, kSeconds))]%string.
(** src/core/config/value_with_unit.cc:30-37 [getUnitToSi] *)
Definition getUnitToSi (u : string) : option (si_unit * Q) :=
  match mfind UnitToSi u with Some (f, si) => Some (si, f) | None => None end.
(** impl/value_with_unit_inl.h:12-61 [ValueWithUnit::from], T = FloatingPoint *)
Definition vu_from (unit : si_unit) (p : pvalue) : option Q :=
  match p with
  | PMap [(param_unit, param_value)] =>
      match getUnitToSi param_unit with
      | None => None
      | Some (si, f) => if negb (si_eqb si unit) then None else
          match param_value with PFloat q => Some (q * f)%Q | PInt z => Some (inject_Z z * f)%Q | _ => None end
      end
  | _ => None
  end.

(** src/core/config/string_list.cc:8-32 [StringList::from]: a string, or a list whose elements that are not strings are skipped *)
Definition strings_from (p : pvalue) : option (list string) :=
  match p with
  | PString s => Some [s]
  | PArray l => Some (flat_map (fun v => match v with PString s => [s] | _ => [] end) l)
  | _ => None
  end.

(** Kinds of config members (config_base.h): the primitive types, and the types with a [from] method:
    TypeSelector, ValueWithUnit, StringList and nested configs. A config type is its list of members. *)
Inductive kind := KBool | KInt | KFloat | KString | KType (names : list string) | KUnit (u : si_unit) | KStrings
  | KConfig (members : list (string * kind * cvalue))
(** member values; a config object is its list of member values *)
with cvalue := CBool (b : bool) | CInt (z : Z) | CFloat (q : Q) | CString (s : string) | CType (id : Z) | CUnit (q : Q) | CStrings (l : list string)
  | CConfig (c : list (string * cvalue)).
(** Update of the member named n. *)
Definition cset (c : list (string * cvalue)) (n : string) (v : cvalue) : list (string * cvalue) :=
  map (fun e => if String.eqb (fst e) n then (fst e, v) else e) c.
(** The default-constructed config (impl/config_base_inl.h:114). *)
Definition defaults (ms : list (string * kind * cvalue)) : list (string * cvalue) := map (fun m => (fst (fst m), snd m)) ms.
(** impl/config_base_inl.h:47-99 [loadParam], both overloads: the value to assign if the parameter can be
    read (None: the member keeps its value), and 102-153 [ConfigBase::from] for nested configs. *)
Fixpoint readParam (k : kind) (v : pvalue) : option cvalue :=
  match k with
  | KBool => match v with PBool b => Some (CBool b) | _ => None end
  | KInt => match v with PInt z => Some (CInt z) | _ => None end
  | KFloat => match v with PFloat q => Some (CFloat q) | PInt z => Some (CFloat (inject_Z z)) | _ => None end
  | KString => match v with PString s => Some (CString s) | _ => None end
  | KType names => match ts_from names v with Some i => Some (CType i) | None => None end
  | KUnit u => match vu_from u v with Some q => Some (CUnit q) | None => None end
  | KStrings => match strings_from v with Some l => Some (CStrings l) | None => None end
  | KConfig ms =>
      match v with
      | PMap pm =>
          Some (CConfig (fold_left (fun c kv =>
            let '(pn, pv) := kv in
            if String.eqb pn kTypeSelectorKey then c else
            (fix load (l : list (string * kind * cvalue)) : list (string * cvalue) :=
               match l with
               | [] => c
               | (n, mk, _) :: l' => if String.eqb n pn then match readParam mk pv with Some x => cset c n x | None => c end
                                     else load l'
               end) ms) pm (defaults ms)))
      | _ => None
      end
  end.
(** impl/config_base_inl.h:102-153 [ConfigBase::from(Value)] *)
Definition cfg_from (ms : list (string * kind * cvalue)) (p : pvalue) : option cvalue := readParam (KConfig ms) p.
(** impl/config_base_inl.h:155-168 [ConfigBase::from(Value, subconfig_name)] *)
Definition cfg_from_sub (ms : list (string * kind * cvalue)) (p : pvalue) (sub : string) : option cvalue :=
  match getChild p sub with Some c => cfg_from ms c | None => None end.
End CFG.
