(** * Spec: the vocabulary of the theorem statements

    Nothing here refers to the handlers, the caches or the monad of the model:
    only to Python objects, annotations and the class table (Py.v). *)

From Verif Require Export Py.
From Coq Require Export Relations.Relation_Operators.

Section Spec.
  Variable w : world.
  Variable pep563 : bool.
  (** what the name in a ForwardRef stands for *)
  Variable env : string -> option ty.

  (** ** What a class declares *)

  (** the type inside NotRequired[...] *)
  Definition unwrap (t : ty) : ty :=
    match t with TGen _ ONotRequired (Some (x :: _)) => x | _ => t end.

  (** the annotations of a class: as written, or resolved by get_type_hints *)
  Definition declared_types (c : cid) (as_written : list (string * ty)) : list (string * ty) :=
    if pep563 then match ci_hints (class_of w c) with POk l => l | PExc _ => [] end
    else as_written.

  (** for an attrs attribute with a converter, the type is the one of the
      parameter of the converter, or Any when it is not annotated *)
  Definition attr_type (f : field) : ty :=
    match f_conv f with
    | None => f_type f
    | Some hints =>
        match List.length hints with
        | 1 | 2 => match filter (fun kt => negb (String.eqb (fst kt) "return")) hints with
                   | (_, t) :: _ => t
                   | [] => TAny
                   end
        | _ => TAny
        end
    end.

  (** kinds of classes loaded from dictionaries *)
  Inductive kind : Type :=
  | KNT (fs : list (string * option value))
  | KDC (fs : list field)
  | KAT (fs : list field)
  | KTD (required : list string).
  Definition kind_of_class (c : cid) : option kind :=
    let ci := class_of w c in
    match ci_nt ci, ci_dc ci, ci_attrs ci, ci_td ci with
    | Some fs, _, _, _ => Some (KNT fs)
    | None, Some fs, _, _ => Some (KDC fs)
    | None, None, Some fs, _ => Some (KAT fs)
    | None, None, None, Some r => Some (KTD r)
    | None, None, None, None => None
    end.

  (** name and type of the fields *)
  Definition declared (c : cid) : list (string * ty) :=
    match kind_of_class c with
    | Some (KNT _) => declared_types c (ci_ann (class_of w c))
    | Some (KDC fs) => declared_types c (map (fun f => (f_name f, f_type f)) fs)
    | Some (KAT fs) => map (fun f => (f_name f, attr_type f)) fs
    | Some (KTD _) => map (fun kt => (fst kt, unwrap (snd kt))) (declared_types c (ci_ann (class_of w c)))
    | None => []
    end.

  (** [x] is a default of the field [k] *)
  Definition is_default (c : cid) (k : string) (x : value) : Prop :=
    match kind_of_class c with
    | Some (KNT fs) => In (k, Some x) fs
    | Some (KDC fs) | Some (KAT fs) =>
        exists f, In f fs /\ f_name f = k /\
          match f_default f with
          | DNo => False
          | DValue d | DFactory d => x = d
          | DFactorySelf g => exists sofar, x = g sofar
          end
    | _ => False
    end.

  (** fields which an instance always has: the arguments of the constructor
      and the fields with a default *)
  Definition instance_fields (fs : list field) : list string :=
    map f_name (filter (fun f => f_init f || match f_default f with DNo => false | _ => true end) fs).

  (** ** Conformance of a value to an annotation *)
  Inductive conforms : value -> ty -> Prop :=
  | cf_any v : conforms v TAny
  | cf_literal v vals : py_in v vals = true -> conforms v (TLiteral vals)
  | cf_class v c :
      kind_of_class c = None -> isinstance w v c = true -> conforms v (TClass c)
  | cf_namedtuple c nt fs :
      kind_of_class c = Some (KNT nt) ->
      map fst fs = map fst nt ->
      (forall k x, In (k, x) fs -> is_default c k x \/ exists t, In (k, t) (declared c) /\ conforms x t) ->
      conforms (VNT c fs) (TClass c)
  | cf_object c decl fs0 fs :
      kind_of_class c = Some (KDC decl) \/ kind_of_class c = Some (KAT decl) ->
      (* the fields as bound by the constructor, then what __post_init__,
         converters and validators made of them *)
      ci_post (class_of w c) fs0 = POk fs ->
      map fst fs0 = instance_fields decl ->
      (forall k x, In (k, x) fs0 -> is_default c k x \/ exists t, In (k, t) (declared c) /\ conforms x t) ->
      conforms (VObj c fs) (TClass c)
  | cf_typeddict c req d :
      kind_of_class c = Some (KTD req) ->
      (forall k x, In (k, x) d -> exists s t, k = VStr s /\ In (s, t) (declared c) /\ conforms x t) ->
      conforms (VDict d) (TClass c)
  | cf_list n l t rest :
      (forall x, In x l -> conforms x t) -> conforms (VList l) (TGen n OList (Some (t :: rest)))
  | cf_set n l t rest :
      (forall x, In x l -> conforms x t) ->
      conforms (VSet l) (TGen n OSet (Some (t :: rest)))
  | cf_frozenset n l t rest :
      (forall x, In x l -> conforms x t) ->
      conforms (VFrozen l) (TGen n OFrozen (Some (t :: rest)))
  | cf_vtuple n l t :
      (forall x, In x l -> conforms x t) -> conforms (VTuple l) (TGen n OTuple (Some [t; TEllipsis]))
  | cf_tuple n l ts :
      Forall2 conforms l ts -> conforms (VTuple l) (TGen n OTuple (Some ts))
  | cf_dict n d kt vt :
      (forall k x, In (k, x) d -> conforms k kt /\ conforms x vt) ->
      conforms (VDict d) (TGen n ODict (Some [kt; vt]))
  | cf_union n v t ts :
      In t ts -> conforms v t -> conforms v (TGen n OUnion (Some ts))
  | cf_pattern n v args :
      isinstance w v CPattern = true -> conforms v (TGen n OPattern args)
  | cf_newtype n v t : conforms v t -> conforms v (TNewType n t)
  | cf_forward n v t : env n = Some t -> conforms v t -> conforms v (TForward n).

  (** ** Components of a type, and the types met while loading it *)
  Definition comps (t : ty) : list ty :=
    match t with
    | TClass c =>
        map snd (declared c) ++
        match ci_enum (class_of w c) with
        | Some _ => match ci_hints (class_of w c) with POk l => map snd l | PExc _ => [] end
        | None => []
        end
    | TGen _ _ (Some args) => args
    | TNewType _ s => [s]
    | TForward n => match env n with Some t' => [t'] | None => [] end
    | _ => []
    end.
  Definition component (t t' : ty) : Prop := In t' (comps t).
  Definition reach : ty -> ty -> Prop := clos_refl_trans_1n ty component.
End Spec.

(** ** Parts of a value: what iterating over it, or over its items, gives *)
Inductive part : value -> value -> Prop :=
| part_item v l x : iter v = Some l -> In x l -> part v x
| part_value d k x : In (k, x) d -> part (VDict d) x
| part_ns_key d k x : In (k, x) d -> part (VNamespace d) (VStr k)
| part_ns_value d k x : In (k, x) d -> part (VNamespace d) x.

(** How reflection on TypedDict classes behaves: they are not attrs classes,
    NotRequired cannot be nested, and a key marked NotRequired is not among
    the required keys. *)
Record wf_reflect (w : world) : Prop := mkReflect {
  wr_td : forall c, ci_td (class_of w c) <> None -> ci_attrs (class_of w c) = None;
  wr_nested : forall c k t, ci_td (class_of w c) <> None ->
      In (k, t) (ci_ann (class_of w c)) -> unwrap (unwrap t) = unwrap t;
  wr_required : forall c req k n a, ci_td (class_of w c) = Some req ->
      In (k, TGen n ONotRequired a) (ci_ann (class_of w c)) -> ~ In k req
}.
