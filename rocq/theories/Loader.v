(** * Loader: model of /repo/typedload/dataloader.py, typechecks.py and the
      exception class of exceptions.py.

    Exceptions are values; the loader object is a record of settings
    ([config], fixed) and caches ([lstate], threaded).  Recursion is on
    explicit fuel, [OOF] being the distinct out-of-fuel outcome which no
    handler can catch; Python's own recursion limit is not modelled. *)

From Verif Require Export Py.

(** ** Exceptions (exceptions.py) *)

(** exceptions.py 38-56: Annotation(annotation_type, value) *)
Inductive ann : Type :=
| AnField (k : string)
| AnIndex (i : nat)
| AnForward (n : string)
| AnKey (k : value)
| AnValue (v : value)
| AnUnion (t : ty).

(** exceptions.py 59-63: TraceItem(value, type_, annotation) *)
Definition titem : Type := (value * ty * option ann)%type.

(** exceptions.py 66-173: the class of the exception *)
Inductive tlkind : Type :=
| KBase    (* TypedloadException *)
| KValue   (* TypedloadValueError, also a ValueError *)
| KType    (* TypedloadTypeError, also a TypeError *)
| KAttr.   (* TypedloadAttributeError, also an AttributeError *)

(** The description: which message, with its arguments, instead of the
    formatted text. *)
Inductive msg : Type :=
| MCannotDeal (t : ty)                    (* 'Cannot deal with value of type' *)
| MFrefDisabled                           (* 314 *)
| MFrefUnknown (s : string)               (* 318 *)
| MNotLiteral (t : ty)                    (* 337 *)
| MPy (r : rawkind)                       (* str(e) of a Python exception *)
| MGot (v : value) (t : ty)               (* 361 *)
| MCannotKey (k t : ty) | MCannotVal (x t : ty)  (* 385, 399, 725 *)
| MTooLong (t : ty) | MTooShort (t : ty)  (* 438, 440 *)
| MDictTuple | MDictIter                  (* 436, 909 *)
| MNotSubclass                            (* 460, end of _iterload *)
| MExtraField (k : string)                (* 481 *)
| MMissing (fs : list string) (t : ty)    (* 562 *)
| MExtra (ks : list value) (t : ty)       (* 573 *)
| MCtor (r : rawkind)                     (* 607, 609: the exception itself *)
| MUnion (c : cid) (t : ty)               (* 746 *)
| MConflict (c : cid) (t : ty) (n : nat)  (* 754 *)
| MEnum (c : cid) (t : ty)                (* 792 *)
| MNotNone                                (* 806 *)
| MNested (m : msg)                       (* 422: str(e) of a typedload exception *)
| MCustom (s : string).                   (* raised by a custom handler *)

(** [XTL k m trace value type_ exceptions]; [value]/[type_] are [None] when
    the code does not pass them.  [XRaw]: any exception which is not a
    TypedloadException.  The list of sub exceptions can contain both
    (_enumload appends whatever it catches, line 785). *)
Inductive exn : Type :=
| XTL (k : tlkind) (m : msg) (tr : list titem) (v : option value) (t : option ty) (subs : list exn)
| XRaw (r : rawkind).

(** [e.trace.insert(0, item)] *)
Definition push_trace (i : titem) (e : exn) : exn :=
  match e with
  | XTL k m tr v t subs => XTL k m (i :: tr) v t subs
  | XRaw r => XRaw r
  end.

Definition is_tl (e : exn) : bool := match e with XTL _ _ _ _ _ _ => true | XRaw _ => false end.

(** ** Handlers, settings and caches *)

(** What a custom handler can do: return, raise, or call [loader.load]
    and continue with the outcome. *)
Inductive hprog : Type :=
| HPRet (v : value)
| HPRaise (e : exn)
| HPLoad (v : value) (t : ty) (a : option ann) (k : value + exn -> hprog).

(** The second components of the handlers list (dataloader.py 212-234);
    [HList]/[HSet]/[HFrozen] are the lambdas calling _iterload. *)
Inductive handler : Type :=
| HNone | HUnion | HBasic | HEnum | HTuple | HList | HDict | HSet | HFrozen
| HNamedTuple | HDataclass | HForward | HLiteral | HTypedDict | HDatetime
| HPattern | HTimedelta | HStrcons | HAttrs | HAny | HNewType
| HCustom (f : value -> ty -> hprog).

(** The first components: conditions, which may raise. *)
Definition cond : Type := ty -> pyres bool.

(** The settings of a Loader (dataloader.py 166-237).  [basictypes] and
    [strconstructed] are sets of classes. *)
Record config : Type := mkConfig {
  basictypes : list cid;
  basiccast : bool;
  failonextra : bool;
  raiseconditionerrors : bool;
  dictequivalence : bool;
  mangle_key : string;
  uniondebugconflict : bool;
  pep563 : bool;
  handlers : list (cond * handler)
}.

(** what _objfieldscache holds (dataloader.py 241, 517): fields,
    necessary fields, type hints, name transforms *)
Record objinfo : Type := mkObjinfo {
  oi_fields : list string;
  oi_necessary : list string;
  oi_hints : list (string * ty);
  oi_names : list (string * string)
}.

(** The mutable part: caches and frefs of the loader (dataloader.py 181,
    239-243) and, as [st_stripped], the TypedDict classes whose
    __annotations__ were rewritten by _typeddictload (645-649); the latter is
    process wide. *)
Record lstate : Type := mkState {
  st_index : list (ty * handler);
  st_frefs : option (list (string * ty));
  st_fields : list (ty * objinfo);
  st_disc : list (ty * option (string * list (value * ty)));
  st_stripped : list cid
}.

(** a new Loader, given frefs *)
Definition fresh (frefs : option (list (string * ty))) (stripped : list cid) : lstate :=
  mkState [] frefs [] [] stripped.

(** ** Outcomes and the state-and-exception monad *)
Inductive res (A : Type) : Type :=
| Ok (a : A)
| Exc (e : exn)
| OOF.
Arguments Ok {A} a.
Arguments Exc {A} e.
Arguments OOF {A}.

Definition MS (S A : Type) : Type := S -> res A * S.
Notation M := (MS lstate).
Definition ret {S A} (a : A) : MS S A := fun s => (Ok a, s).
Definition raise {S A} (e : exn) : MS S A := fun s => (Exc e, s).
Definition bind {S A B} (m : MS S A) (f : A -> MS S B) : MS S B :=
  fun s => match m s with
           | (Ok a, s') => f a s'
           | (Exc e, s') => (Exc e, s')
           | (OOF, s') => (OOF, s')
           end.
(** [try: m except Exception as e: h e] *)
Definition catch {S A} (m : MS S A) (h : exn -> MS S A) : MS S A :=
  fun s => match m s with
           | (Ok a, s') => (Ok a, s')
           | (Exc e, s') => h e s'
           | (OOF, s') => (OOF, s')
           end.
(** run [m] and give its outcome as a value *)
Definition attempt {S A} (m : MS S A) : MS S (A + exn) :=
  fun s => match m s with
           | (Ok a, s') => (Ok (inl a), s')
           | (Exc e, s') => (Ok (inr e), s')
           | (OOF, s') => (OOF, s')
           end.
Definition get_st {S} : MS S S := fun s => (Ok s, s).
Definition mod_st {S} (f : S -> S) : MS S unit := fun s => (Ok tt, f s).

Declare Scope monad_scope.
Delimit Scope monad_scope with monad.
Notation "x <- m ;; f" := (bind m (fun x => f)) (at level 61, m at next level, right associativity) : monad_scope.
Notation "' p <- m ;; f" := (bind m (fun p => f)) (at level 61, p pattern, m at next level, right associativity) : monad_scope.
Open Scope monad_scope.

Definition lift {S A} (r : pyres A) : MS S A :=
  match r with POk a => ret a | PExc k => raise (XRaw k) end.

Definition set_index (f : list (ty * handler) -> list (ty * handler)) (s : lstate) : lstate :=
  mkState (f (st_index s)) (st_frefs s) (st_fields s) (st_disc s) (st_stripped s).
Definition set_frefs (f : option (list (string * ty))) (s : lstate) : lstate :=
  mkState (st_index s) f (st_fields s) (st_disc s) (st_stripped s).
Definition set_fields (f : list (ty * objinfo) -> list (ty * objinfo)) (s : lstate) : lstate :=
  mkState (st_index s) (st_frefs s) (f (st_fields s)) (st_disc s) (st_stripped s).
Definition set_disc (f : list (ty * option (string * list (value * ty))) -> list (ty * option (string * list (value * ty)))) (s : lstate) : lstate :=
  mkState (st_index s) (st_frefs s) (st_fields s) (f (st_disc s)) (st_stripped s).
Definition set_stripped (f : list cid -> list cid) (s : lstate) : lstate :=
  mkState (st_index s) (st_frefs s) (st_fields s) (st_disc s) (f (st_stripped s)).

(** ** Type checks (typechecks.py) *)
Section Typechecks.
  Variable w : world.

  (** typechecks.py 143-147 *)
  Definition is_nonetype (t : ty) : bool := ty_eqb t (TClass CNone).
  (** typechecks.py 110-129; the bare typing.Union has no __origin__ *)
  Definition is_union (t : ty) : bool :=
    match t with TGen _ OUnion (Some _) => true | _ => false end.
  (** typechecks.py 150-183: _generic_type_check on __origin__ ([__extra__] is
      Python 3.6 only) *)
  Definition is_tuple (t : ty) : bool := match t with TGen _ OTuple _ => true | _ => false end.
  Definition is_list (t : ty) : bool := match t with TGen _ OList _ => true | _ => false end.
  Definition is_dict (t : ty) : bool := match t with TGen _ ODict _ => true | _ => false end.
  Definition is_set (t : ty) : bool := match t with TGen _ OSet _ => true | _ => false end.
  Definition is_frozenset (t : ty) : bool := match t with TGen _ OFrozen _ => true | _ => false end.
  (** typechecks.py 132-140 *)
  Definition is_optional (t : ty) : bool :=
    match t with
    | TGen _ OUnion (Some args) =>
        Nat.eqb (List.length args) 2 && mem_ty (TClass CNone) args
    | _ => false
    end.
  (** typechecks.py 186-190 *)
  Definition is_enum (t : ty) : bool :=
    match t with TClass c => match ci_enum (class_of w c) with Some _ => true | None => false end | _ => false end.
  (** typechecks.py 193-197; in Python 3.11 every class has __annotations__ *)
  Definition is_namedtuple (t : ty) : bool :=
    match t with TClass c => match ci_nt (class_of w c) with Some _ => true | None => false end | _ => false end.
  (** typechecks.py 200-204 *)
  Definition is_dataclass (t : ty) : bool :=
    match t with TClass c => match ci_dc (class_of w c) with Some _ => true | None => false end | _ => false end.
  (** typechecks.py 207-214 *)
  Definition is_forwardref (t : ty) : bool := match t with TForward _ => true | _ => false end.
  (** typechecks.py 217-222 *)
  Definition is_attrs (t : ty) : bool :=
    match t with TClass c => match ci_attrs (class_of w c) with Some _ => true | None => false end | _ => false end.
  (** typechecks.py 225-231 *)
  Definition is_newtype (t : ty) : bool := match t with TNewType _ _ => true | _ => false end.
  (** typechecks.py 252-256 *)
  Definition is_literal (t : ty) : bool := match t with TLiteral _ => true | _ => false end.
  (** typechecks.py 259-263 *)
  Definition is_pattern (t : ty) : bool :=
    match t with TClass CPattern => true | TGen _ OPattern _ => true | _ => false end.
  (** typechecks.py 266-270 *)
  Definition is_typeddict (t : ty) : bool :=
    match t with TClass c => match ci_td (class_of w c) with Some _ => true | None => false end | _ => false end.
  (** typechecks.py 273-277 *)
  Definition is_any (t : ty) : bool := match t with TAny => true | _ => false end.
  (** typechecks.py 280-299: is_notrequired, notrequiredtype *)
  Definition is_notrequired (t : ty) : bool :=
    match t with TGen _ ONotRequired _ => true | _ => false end.
  Definition strip_notrequired (t : ty) : ty :=
    match t with TGen _ ONotRequired (Some (x :: _)) => x | _ => t end.

  (** [type_.__args__]; None stands for AttributeError.  (The __args__ of a
      Literal are values and are used only by _literalload.) *)
  Definition ty_args (t : ty) : option (list ty) :=
    match t with TGen _ _ args => args | _ => None end.

  Definition in_classes (l : list cid) (t : ty) : bool :=
    match t with TClass c => mem_cid c l | _ => false end.

  (** dataloader.py 212-234: the default handlers *)
  Definition default_handlers (basic strcons : list cid) : list (cond * handler) :=
    let c (f : ty -> bool) : cond := fun t => POk (f t) in
    [ (c is_nonetype, HNone);
      (c is_union, HUnion);
      (c (in_classes basic), HBasic);
      (c is_enum, HEnum);
      (c is_tuple, HTuple);
      (c is_list, HList);
      (c is_dict, HDict);
      (c is_set, HSet);
      (c is_frozenset, HFrozen);
      (c is_namedtuple, HNamedTuple);
      (c is_dataclass, HDataclass);
      (c is_forwardref, HForward);
      (c is_literal, HLiteral);
      (c is_typeddict, HTypedDict);
      (c (in_classes [CDate; CTime; CDatetime]), HDatetime);
      (c is_pattern, HPattern);
      (c (fun t => ty_eqb t (TClass CTimedelta)), HTimedelta);
      (c (in_classes strcons), HStrcons);
      (c is_attrs, HAttrs);
      (c is_any, HAny);
      (c is_newtype, HNewType) ].

  (** dataloader.py 245-261: Loader.index *)
  Fixpoint index_from (rce : bool) (hs : list (cond * handler)) (t : ty) (i : nat) : pyres nat :=
    match hs with
    | [] => PExc RValue
    | (c, _) :: hs' =>
        match c t with
        | PExc r => if rce then PExc r else index_from rce hs' t (S i)
        | POk true => POk i
        | POk false => index_from rce hs' t (S i)
        end
    end.
  Definition loader_index (cfg : config) (t : ty) : pyres nat :=
    index_from (raiseconditionerrors cfg) (handlers cfg) t 0.
  (** [self.handlers[self.index(type_)][1]] *)
  Definition find_handler (cfg : config) (t : ty) : pyres handler :=
    match loader_index cfg t with
    | PExc r => PExc r
    | POk i => match nth_error (handlers cfg) i with
               | Some (_, h) => POk h
               | None => PExc RIndex
               end
    end.
End Typechecks.

(** ** The handlers (dataloader.py 306-944) *)
Section Load.
  Variable w : world.
  Variable cfg : config.

  Definition basicb (t : ty) : bool := in_classes (basictypes cfg) t.

  (** [isinstance(v, t)] for [t] a basic type *)
  Definition isinst (v : value) (t : ty) : bool :=
    match t with TClass c => isinstance w v c | _ => false end.
  (** [type(v) == t] *)
  Definition exact (v : value) (t : ty) : bool := ty_eqb (TClass (type_of v)) t.

  (** Calling a class or alias with one argument: enums by the enum rules,
      everything else is the library's business *)
  Definition call_type (t : ty) (v : value) : pyres value :=
    match t with
    | TClass c => match ci_enum (class_of w c) with
                  | Some ms => enum_call c ms v
                  | None => w_call w t v
                  end
    | _ => w_call w t v
    end.

  (** The lookup in _indexcache used by all the handlers which skip load()
      (378-388, 588-597, 717-728, 912-925): cached handler, or index() whose
      ValueError becomes [nf]. *)
  Definition lookup_handler (nf : exn) (t : ty) : M handler :=
    fun s =>
      match ty_get t (st_index s) with
      | Some h => (Ok h, s)
      | None =>
          match find_handler cfg t with
          | POk h => (Ok h, set_index (cons (t, h)) s)
          | PExc RValue => (Exc nf, s)
          | PExc r => (Exc (XRaw r), s)
          end
      end.

  (** 292-296: register the name of a type for ForwardRef *)
  Definition register (t : ty) (s : lstate) : lstate :=
    match st_frefs s, w_name w t with
    | Some fr, Some n =>
        match str_get n fr with
        | Some _ => s
        | None => set_frefs (Some (fr ++ [(n, t)])) s
        end
    | _, _ => s
    end.

  (** The recursive calls: running a handler on a value and a type. *)
  Variable call : handler -> value -> ty -> M value.

  (** 263-303: Loader.load *)
  Definition load_with (v : value) (t : ty) (a : option ann) : M value :=
    h <- (fun s =>
            match ty_get t (st_index s) with
            | Some h => (Ok h, s)
            | None =>
                match find_handler cfg t with
                | POk h => (Ok h, register t (set_index (cons (t, h)) s))
                | PExc RValue =>
                    (Exc (XTL KType (MCannotDeal t) [] (Some v) (Some t) []), s)
                | PExc r => (Exc (XRaw r), s)
                end
            end) ;;
    catch (call h v t)
          (fun e => if is_tl e
                    then raise (push_trace (v, t, a) e)
                    else raise (XRaw RAssert)).    (* the assert in 301 *)

  (** 306-323 *)
  Definition forwardrefload (v : value) (t : ty) : M value :=
    s <- get_st ;;
    match st_frefs s with
    | None => raise (XTL KBase MFrefDisabled [] (Some v) (Some t) [])
    | Some fr =>
        match t with
        | TForward n =>
            match str_get n fr with
            | None => raise (XTL KValue (MFrefUnknown n) [] (Some v) (Some t) [])
            | Some t' => load_with v t' (Some (AnForward n))
            end
        | _ => raise (XRaw RAttr)
        end
    end.

  (** 330-337 *)
  Definition literalload (v : value) (t : ty) : M value :=
    match t with
    | TLiteral vals =>
        if py_in v vals then ret v
        else raise (XTL KValue (MNotLiteral t) [] (Some v) (Some t) [])
    | _ => raise (XRaw RAttr)
    end.

  (** 340-362 *)
  Definition basicload (v : value) (t : ty) : M value :=
    if exact v t then ret v
    else if basiccast cfg then
      match call_type t v with
      | POk r => ret r
      | PExc RValue => raise (XTL KValue (MPy RValue) [] (Some v) (Some t) [])
      | PExc RType => raise (XTL KType (MPy RType) [] (Some v) (Some t) [])
      | PExc r => raise (XTL KBase (MPy r) [] (Some v) (Some t) [])
      end
    else raise (XTL KValue (MGot v t) [] (Some v) (Some t) []).

  (** 529-542: _dictequivalence; only argparse.Namespace has _get_kwargs *)
  Definition as_dict (v : value) : value :=
    match v with
    | VNamespace d =>
        if dictequivalence cfg then VDict (map (fun kv => (VStr (fst kv), snd kv)) d) else v
    | _ => v
    end.

  (** 407-412: the fast loop.  [vf = None]: the local variable value_f is
      unbound, because line 396 assigns key_f instead of value_f *)
  Fixpoint dict_fast (kt vt : ty) (kf : handler) (vf : option handler)
           (d : list (value * value)) (acc : list (value * value)) : M value :=
    match d with
    | [] => ret (VDict acc)
    | (k, x) :: d' =>
        k' <- (if basicb kt && isinst k kt then ret k else call kf k kt) ;;
        x' <- (if basicb vt && isinst x vt then ret x
               else match vf with
                    | Some h => call h x vt
                    | None => raise (XRaw RName)
                    end) ;;
        if hashable w k' then dict_fast kt vt kf vf d' (dict_set k' x' acc)
        else raise (XRaw RType)
    end.

  (** 417-420: the slow loop *)
  Fixpoint dict_slow (kt vt : ty) (d : list (value * value)) (acc : list (value * value)) : M value :=
    match d with
    | [] => ret (VDict acc)
    | (k, x) :: d' =>
        k' <- load_with k kt (Some (AnKey k)) ;;
        x' <- load_with x vt (Some (AnValue x)) ;;
        if hashable w k' then dict_slow kt vt d' (dict_set k' x' acc)
        else raise (XRaw RType)
    end.

  (** 365-422 *)
  Definition dictload (v : value) (t : ty) : M value :=
    match ty_args t with
    | None => raise (XRaw RAttr)
    | Some [kt; vt] =>
        kf0 <- lookup_handler (XTL KValue (MCannotKey kt t) [] (Some v) (Some kt) []) kt ;;
        '(kf, vf) <-
          (fun s =>
             match ty_get vt (st_index s) with
             | Some h => (Ok (kf0, Some h), s)
             | None =>
                 match find_handler cfg vt with
                 | POk h => (Ok (h, None), set_index (cons (vt, h)) s)   (* line 396 *)
                 | PExc RValue =>
                     (Exc (XTL KValue (MCannotVal vt t) [] (Some v) (Some vt) []), s)
                 | PExc r => (Exc (XRaw r), s)
                 end
             end) ;;
        let v' := as_dict v in
        catch
          (match v' with
           | VDict d => dict_fast kt vt kf vf d []
           | _ => raise (XRaw RAttr)
           end)
          (fun _ =>
             catch
               (match v' with
                | VDict d => dict_slow kt vt d []
                | _ => raise (XRaw RAttr)
                end)
               (fun e =>
                  match e with
                  | XRaw RAttr => raise (XTL KAttr (MPy RAttr) [] (Some v') (Some t) [])
                  | XTL KAttr m _ _ _ _ => raise (XTL KAttr (MNested m) [] (Some v') (Some t) [])
                  | _ => raise e
                  end))
    | Some _ => raise (XRaw RValue)      (* unpacking __args__ in 371 *)
    end.

  (** What _iterload's [function] does with the loaded items *)
  Inductive coll : Type := KoList | KoTuple | KoSet | KoFrozen.
  Definition mk_coll (k : coll) (l : list value) : value :=
    match k with
    | KoList => VList l | KoTuple => VTuple l | KoSet => VSet l | KoFrozen => VFrozen l
    end.
  (** one more item: sets hash it, and ignore an item equal to a previous one *)
  Definition coll_add (k : coll) (x : value) (acc : list value) : pyres (list value) :=
    match k with
    | KoList | KoTuple => POk (acc ++ [x])
    | KoSet | KoFrozen => if hashable w x then POk (set_add x acc) else PExc RType
    end.

  (** the except clauses 452-460, and 936-944 of
      _iterload; [i] is the index of the item which was being loaded, which is
      what [next(ctr) - 2] computes *)
  Definition item_error {A} (v : value) (t : ty) (i : nat) (e : exn) : M A :=
    match e with
    | XTL _ _ _ _ _ _ => raise (push_trace (v, t, Some (AnIndex i)) e)
    | XRaw RType => raise (XTL KType (MPy RType) [] (Some v) (Some t) [])
    | XRaw _ => raise (XTL KType MNotSubclass [] None None [])
    end.

  (** 935: is the handler called by map()?  For basic types and unions of them
      (930-933) it is called by a generator expression instead. *)
  Definition mapped (et : ty) : bool :=
    negb (basicb et) && match et with TGen _ OUnion (Some us) => negb (forallb basicb us) | _ => true end.
  (** A StopIteration which is raised by the function of a map() is the end of
      the iteration for list(), tuple(), set() and frozenset(); in a generator
      expression it becomes a RuntimeError (PEP 479), which is treated like any
      other exception. *)
  Definition stops (mp : bool) (e : exn) : bool := mp && match e with XRaw RStopIter => true | _ => false end.
  (** 929-935: consume the iterator, load each item, give it to [function].
      [f x] loads one item; [mp]: by map(). *)
  Fixpoint iter_loop (k : coll) (mp : bool) (f : value -> M value) (v : value) (t : ty)
           (l : list value) (i : nat) (acc : list value) : M value :=
    match l with
    | [] => ret (mk_coll k acc)
    | x :: l' =>
        r <- attempt (y <- f x ;; lift (coll_add k y acc)) ;;
        match r with
        | inl acc' => iter_loop k mp f v t l' (S i) acc'
        | inr e => if stops mp e then ret (mk_coll k acc) else item_error v t i e
        end
    end.

  (** 930-935: loading one item [x] into the type [et], whose handler is [h]:
      instances of basic types, and of unions of basic types, are kept *)
  Definition iter_item (h : handler) (et : ty) (x : value) : M value :=
    if basicb et then
      if isinst x et then ret x else call h x et
    else match et with
         | TGen _ OUnion (Some us) =>
             if forallb basicb us && mem_ty (TClass (type_of x)) us then ret x
             else call h x et
         | _ => call h x et
         end.

  (** 901-944: _iterload *)
  Definition iterload (k : coll) (v : value) (t : ty) : M value :=
    match v with
    | VDict _ => raise (XTL KType MDictIter [] (Some v) (Some t) [])
    | _ =>
        match ty_args t with
        | None => raise (XRaw RAttr)
        | Some [] => raise (XRaw RIndex)
        | Some (et :: _) =>
            h <- lookup_handler (XTL KType (MCannotDeal et) [] (Some v) (Some et) []) et ;;
            match iter v with
            | None => raise (XTL KType (MPy RType) [] (Some v) (Some t) [])
            | Some l =>
                iter_loop k (mapped et) (iter_item h et) v t l 0 []
            end
        end
    end.

  (** 444-451: the zip over values, handlers and types; handlers found with
      index() are not stored in the cache here *)
  Fixpoint tuple_loop (v : value) (t : ty) (l : list value) (ts : list ty)
           (i : nat) (acc : list value) : M value :=
    match ts, l with
    | et :: ts', x :: l' =>
        r <- attempt
               (h <- (fun s => match ty_get et (st_index s) with
                               | Some h => (Ok h, s)
                               | None => lift (find_handler cfg et) s
                               end) ;;
                if basicb et && exact x et then ret x else call h x et) ;;
        match r with
        | inl y => tuple_loop v t l' ts' (S i) (acc ++ [y])
        | inr e => item_error v t i e
        end
    | _, _ => ret (VTuple acc)
    end.

  (** 425-460 *)
  Definition tupleload (v : value) (t : ty) : M value :=
    match ty_args t with
    | None => raise (XRaw RAttr)
    | Some [_; TEllipsis] => iterload KoTuple v t
    | Some ts =>
        match v with
        | VDict _ => raise (XTL KType MDictTuple [] (Some v) (Some t) [])
        | _ =>
            match iter v with
            | None => raise (XRaw RType)       (* len(value), outside of any try *)
            | Some l =>
                if failonextra cfg && Nat.ltb (List.length ts) (List.length l)
                then raise (XTL KValue (MTooLong t) [] (Some v) (Some t) [])
                else if Nat.ltb (List.length l) (List.length ts)
                then raise (XTL KValue (MTooShort t) [] (Some v) (Some t) [])
                else tuple_loop v t l ts 0 []
            end
        end
    end.

  (** 463-487: the loop of _mangle_names; [inr k]: ValueError on key k *)
  Fixpoint mangle_loop (names : list (string * string)) (skip : list string)
           (d acc : list (value * value)) : list (value * value) + string :=
    match d with
    | [] => inl acc
    | (k, x) :: d' =>
        match k with
        | VStr s =>
            match str_get s names with
            | Some s' => mangle_loop names skip d' (dict_set (VStr s') x acc)
            | None =>
                if mem_str s skip then
                  if failonextra cfg then inr s else mangle_loop names skip d' acc
                else mangle_loop names skip d' (dict_set k x acc)
            end
        | _ => mangle_loop names skip d' (dict_set k x acc)
        end
    end.

  (** 463-487 together with the except clauses at the two call sites
      (519-524, 873-878) *)
  Definition mangle (names : list (string * string)) (v : value) (t : ty) : M value :=
    match names with
    | [] => ret v
    | _ =>
        match v with
        | VDict d =>
            match mangle_loop names (map snd names) d [] with
            | inl d' => ret (VDict d')
            | inr k => raise (XTL KValue (MExtraField k) [] (Some v) (Some t) [])
            end
        | _ => raise (XTL KAttr (MPy RAttr) [] (Some v) (Some t) [])
        end
    end.

  Definition str_key (v : value) : option string :=
    match v with VStr s => Some s | _ => None end.
  Definition key_in (l : list string) (kv : value * value) : bool :=
    match fst kv with VStr s => mem_str s l | _ => false end.
  Definition has_key (d : list (value * value)) (s : string) : bool :=
    existsb (fun kv => match fst kv with VStr s' => String.eqb s s' | _ => false end) d.
  Definition all_str (l : list value) : bool :=
    forallb (fun k => match k with VStr _ => true | _ => false end) l.

  (** 579-603: the loop on the items of the dictionary *)
  Fixpoint fields_loop (fields : list string) (hints : list (string * ty)) (v : value) (t : ty)
           (d : list (value * value)) (acc : list (string * value)) : M (list (string * value)) :=
    match d with
    | [] => ret acc
    | (k, x) :: d' =>
        match k with
        | VStr s =>
            if mem_str s fields then
              match str_get s hints with
              | None => raise (XRaw RKey)
              | Some ft =>
                  h <- lookup_handler (XTL KType (MCannotDeal ft) [] (Some v) (Some ft) []) ft ;;
                  y <- catch (call h x ft)
                             (fun e => raise (push_trace (v, t, Some (AnField s)) e)) ;;
                  fields_loop fields hints v t d' (acc ++ [(s, y)])
              end
            else fields_loop fields hints v t d' acc
        | _ => fields_loop fields hints v t d' acc
        end
    end.

  (** 545-609: _objloader.  Sets of names are lists without the duplicates
      that set() would remove; the missing and extra names are reported in
      the order of the lists. *)
  Definition objloader (fields necessary : list string) (hints : list (string * ty))
             (v : value) (t : ty) : M value :=
    match as_dict v with
    | VDict d =>
        let v' := VDict d in
        match filter (fun s => negb (has_key d s)) necessary with
        | (_ :: _) as missing =>
            raise (XTL KValue (MMissing missing t) [] (Some v') (Some t) [])
        | [] =>
            let extra := map fst (filter (fun kv => negb (key_in fields kv)) d) in
            if failonextra cfg && negb (Nat.eqb (List.length extra) 0) then
              if all_str extra
              then raise (XTL KValue (MExtra extra t) [] (Some v') (Some t) [])
              else raise (XRaw RType)         (* ', '.join in 571 *)
            else
              params <- fields_loop fields hints v' t d [] ;;
              match construct w t params with
              | POk r => ret r
              | PExc RType => raise (XTL KType (MCtor RType) [] None None [])
              | PExc RValue => raise (XTL KValue (MCtor RValue) [] None None [])
              | PExc r => raise (XRaw r)
              end
        end
    | _ => raise (XTL KAttr (MPy RAttr) [] (Some v) (Some t) [])
    end.

  (** 499-502: fields a dictionary must provide to a dataclass: in the
      constructor and without default *)
  Definition required_field (f : field) : bool :=
    f_init f && match f_default f with DNo => true | _ => false end.

  (** 499: the names of the fields are a set; the loop of line 511 visits the
      fields in its order *)
  Definition dc_order (fs : list field) : list field :=
    flat_map (fun k => filter (fun f => String.eqb (f_name f) k) fs)
             (set_iter w (nodup string_dec (map f_name fs))).
  (** 512-514: the name in the metadata; absent, or empty: no name *)
  Definition dc_name (f : field) : option string :=
    match str_get (mangle_key cfg) (f_meta f) with
    | Some EmptyString => None
    | x => x
    end.
  (** 509-516: transforms, a dictionary from the external names to the fields; of
      two fields with the same external name the one which is visited last stays.
      Only get() and values() of it are used: it is listed here in the order of
      the definition of the fields *)
  Definition dc_table (fs : list field) : list (string * string) :=
    fold_left (fun acc f => match dc_name f with Some n => str_set n (f_name f) acc | None => acc end) (dc_order fs) [].
  Definition dc_transforms (fs : list field) : list (string * string) :=
    flat_map (fun f => match dc_name f with
                       | Some n => match str_get n (dc_table fs) with
                                   | Some k => if String.eqb k (f_name f) then [(n, k)] else []
                                   | None => []
                                   end
                       | None => []
                       end) fs.

  (** 497-516: what is computed for a dataclass and then cached *)
  Definition dataclass_info (c : cid) (fs : list field) : pyres objinfo :=
    match (if pep563 cfg then ci_hints (class_of w c)
           else POk (map (fun f => (f_name f, f_type f)) fs)) with
    | PExc r => PExc r
    | POk hints =>
        POk (mkObjinfo
               (map f_name fs)
               (map f_name (filter required_field fs))
               hints
               (dc_transforms fs))
    end.

  (** 490-526 *)
  Definition dataclassload (v : value) (t : ty) : M value :=
    oi <- (fun s =>
             match ty_get t (st_fields s) with
             | Some oi => (Ok oi, s)
             | None =>
                 match t with
                 | TClass c =>
                     match ci_dc (class_of w c) with
                     | None => (Exc (XRaw RAttr), s)
                     | Some fs =>
                         match dataclass_info c fs with
                         | POk oi => (Ok oi, set_fields (cons (t, oi)) s)
                         | PExc r => (Exc (XRaw r), s)
                         end
                     end
                 | _ => (Exc (XRaw RAttr), s)
                 end
             end) ;;
    v' <- mangle (oi_names oi) v t ;;
    objloader (oi_fields oi) (oi_necessary oi) (oi_hints oi) v' t.

  (** 612-624 *)
  Definition namedtupleload (v : value) (t : ty) : M value :=
    match t with
    | TClass c =>
        match ci_nt (class_of w c) with
        | None => raise (XRaw RAttr)
        | Some nt =>
            hints <- lift (if pep563 cfg then ci_hints (class_of w c) else POk (ci_ann (class_of w c))) ;;
            let fields := map fst hints in
            let optional := map fst (filter (fun f => match snd f with Some _ => true | None => false end) nt) in
            let necessary := filter (fun s => negb (mem_str s optional)) fields in
            objloader fields necessary hints v t
        end
    | _ => raise (XRaw RAttr)
    end.

  (** the current __annotations__ of a class *)
  Definition annotations (s : lstate) (c : cid) : list (string * ty) :=
    let a := ci_ann (class_of w c) in
    if mem_cid c (st_stripped s)
    then map (fun kt => (fst kt, strip_notrequired (snd kt))) a
    else a.

  (** 627-651; in Python 3.11 a TypedDict always has __required_keys__.  The
      loop 645-649 stores the unwrapped types in the __annotations__ of the
      class itself (unless pep563). *)
  Definition typeddictload (v : value) (t : ty) : M value :=
    match t with
    | TClass c =>
        match ci_td (class_of w c) with
        | None => raise (XRaw RAttr)
        | Some required =>
            s <- get_st ;;
            hints <- lift (if pep563 cfg then ci_hints (class_of w c) else POk (annotations s c)) ;;
            let fields := map fst hints in
            let notreq := map fst (filter (fun kt => is_notrequired (snd kt)) hints) in
            let necessary := filter (fun k => negb (mem_str k notreq)) required in
            let hints' := map (fun kt => (fst kt, strip_notrequired (snd kt))) hints in
            _ <- mod_st (fun s => if pep563 cfg then s else set_stripped (cons c) s) ;;
            objloader fields necessary hints' v t
        end
    | _ => raise (XRaw RAttr)
    end.

  (** typechecks.py 302-325: discriminatorliterals; literalvalues makes a
      set, so unhashable literals raise TypeError *)
  Definition discriminatorliterals (s : lstate) (t : ty) : list (string * list value) :=
    match t with
    | TClass c =>
        flat_map (fun kt => match snd kt with
                            | TLiteral vals => [(fst kt, vals)]
                            | _ => []
                            end) (annotations s c)
    | _ => []
    end.

  (** [cachedict[literal] = t] *)
  Fixpoint disc_set (l : value) (t : ty) (d : list (value * ty)) : list (value * ty) :=
    match d with
    | [] => [(l, t)]
    | (l', t') :: d' => if py_eqb l l' then (l', t) :: d' else (l', t') :: disc_set l t d'
    end.
  Fixpoint disc_get (l : value) (d : list (value * ty)) : option ty :=
    match d with
    | [] => None
    | (l', t') :: d' => if py_eqb l l' then Some t' else disc_get l d'
    end.

  (** 685-700: build the discriminator of a union.  [keys.pop()] takes an
      arbitrary element, chosen by [w_pick].  Simplification: a type with the
      same name annotated twice does not exist, so the keys are taken without
      removing duplicates. *)
  Definition build_disc (s : lstate) (args : list ty) : option (string * list (value * ty)) :=
    let data := map (fun t => (t, discriminatorliterals s t)) args in
    let keysets := map (fun td => map fst (snd td)) data in
    let keys := match keysets with
                | [] => []
                | ks :: rest => filter (fun k => forallb (mem_str k) rest) ks
                end in
    match nth_error keys (w_pick w keys mod List.length keys) with
    | None => None
    | Some key =>
        Some (key,
              fold_left
                (fun acc td =>
                   match str_get key (snd td) with
                   | Some vals => fold_left (fun acc l => disc_set l (fst td) acc) vals acc
                   | None => acc
                   end) data [])
    end.

  (** 708-709: move the preferred type to the front *)
  Fixpoint remove_first (t : ty) (l : list ty) : list ty :=
    match l with
    | [] => []
    | x :: l' => if ty_eqb t x then l' else x :: remove_first t l'
    end.

  (** 678-709: only dictionaries have a [get] method.  The cache is a
      dictionary whose keys are types: unions of the same members share an
      entry, which is the one of the order met first *)
  Definition prefer (v : value) (t : ty) (args sorted : list ty) : M (list ty) :=
    match v with
    | VDict d =>
        disc <- (fun s =>
                   match same_get t (st_disc s) with
                   | Some dc => (Ok dc, s)
                   | None =>
                       let dc := build_disc s args in
                       (Ok dc, set_disc (cons (t, dc)) s)
                   end) ;;
        match disc with
        | Some (key, ((_ :: _) as cd)) =>
            let tag := match dict_get (VStr key) d with Some x => x | None => VNone end in
            if hashable w tag then
              match disc_get tag cd with
              | Some p => ret (p :: remove_first p sorted)
              | None => ret sorted
              end
            else raise (XRaw RType)           (* unhashable key in 705 *)
        | _ => ret sorted
        end
    | _ => ret sorted
    end.

  (** 712-738: try the members *)
  Fixpoint try_members (v : value) (t : ty) (ts : list ty)
           (n : nat) (r : value) (exs : list exn) : M (nat * value * list exn) :=
    match ts with
    | [] => ret (n, r, exs)
    | x :: ts' =>
        o <- attempt
               (h <- lookup_handler (XTL KValue (MCannotKey x t) [] (Some v) (Some x) []) x ;;
                call h v x) ;;
        match o with
        | inl r' =>
            if uniondebugconflict cfg then try_members v t ts' (S n) r' exs
            else ret (S n, r', exs)
        | inr (XRaw k) => raise (XRaw k)
        | inr e => try_members v t ts' n r (exs ++ [push_trace (v, t, Some (AnUnion x)) e])
        end
    end.

  (** 654-758 *)
  Definition unionload (v : value) (t : ty) : M value :=
    match ty_args t with
    | None => raise (XRaw RAttr)
    | Some args =>
        let vt := TClass (type_of v) in
        if basicb vt && mem_ty vt args then ret v
        else
          (* 675-676: stable sort, basic types last *)
          let sorted := filter (fun x => negb (basicb x)) args ++ filter basicb args in
          sorted' <- prefer v t args sorted ;;
          '(n, r, exs) <- try_members v t sorted' 0 VNone [] ;;
          match n with
          | 1 => ret r
          | 0 => raise (XTL KValue (MUnion (type_of v) t) [] (Some v) (Some t) exs)
          | _ => raise (XTL KType (MConflict (type_of v) t n) [] (Some v) (Some t) exs)
          end
    end.

  (** 779-785: try the type hints of an Enum *)
  Fixpoint enum_hints (v : value) (t : ty) (ts : list ty) (exs : list exn) : M (value + list exn) :=
    match ts with
    | [] => ret (inr exs)
    | x :: ts' =>
        o <- attempt (y <- load_with v x (Some (AnUnion x)) ;; lift (call_type t y)) ;;
        match o with
        | inl r => ret (inl r)
        | inr e => enum_hints v t ts' (exs ++ [e])
        end
    end.

  (** 761-796 *)
  Definition enumload (v : value) (t : ty) : M value :=
    match call_type t v with
    | POk r => ret r
    | PExc _ =>
        match t with
        | TClass c =>
            hints <- lift (ci_hints (class_of w c)) ;;
            o <- enum_hints v t (map snd hints) [] ;;
            match o with
            | inl r => ret r
            | inr exs => raise (XTL KValue (MEnum (type_of v) t) [] (Some v) (Some t) exs)
            end
        | _ => raise (XRaw RAttr)
        end
    end.

  (** 799-806 *)
  Definition noneload (v : value) (t : ty) : M value :=
    match v with
    | VNone => ret VNone
    | _ => raise (XTL KValue MNotNone [] (Some v) (Some t) [])
    end.

  (** 809-819 *)
  Definition datetimeload (v : value) (t : ty) : M value :=
    match t with
    | TClass c =>
        match (match v with
               | VStr s => w_fromiso w c s
               | _ => match iter v with
                      | Some l => w_callargs w c l
                      | None => PExc RType
                      end
               end) with
        | POk r => ret r
        | PExc RType => raise (XTL KType (MPy RType) [] (Some v) (Some t) [])
        | PExc RValue => raise (XTL KValue (MPy RValue) [] (Some v) (Some t) [])
        | PExc r => raise (XRaw r)
        end
    | _ => raise (XRaw RAttr)
    end.

  (** 822-832.  The check 823-826 is dead code: it tests the builtin [type],
      not [type_], for __args__, and the builtin has none. *)
  Definition patternload (v : value) (t : ty) : M value :=
    match w_compile w v with
    | POk r => ret r
    | PExc RReError => raise (XTL KBase (MPy RReError) [] (Some v) (Some t) [])
    | PExc RType => raise (XTL KType (MPy RType) [] (Some v) (Some t) [])
    | PExc r => raise (XRaw r)
    end.

  (** 835-839 *)
  Definition timedeltaload (v : value) (t : ty) : M value :=
    match w_timedelta w v with
    | POk r => ret r
    | PExc RType => raise (XTL KType (MPy RType) [] (Some v) (Some t) [])
    | PExc r => raise (XRaw r)
    end.

  (** 841-854: _get_attr_converter_type on the type hints of the converter *)
  Definition converter_type (hints : list (string * ty)) : pyres ty :=
    if Nat.ltb 0 (List.length hints) && Nat.leb (List.length hints) 2 then
      match filter (fun kt => negb (String.eqb (fst kt) "return")) hints with
      | (_, t) :: _ => POk t
      | [] => PExc RStopIter         (* next() on an empty iterator *)
      end
    else POk TAny.

  (** 862: hints of the attributes *)
  Fixpoint attr_hints (fs : list field) : pyres (list (string * ty)) :=
    match fs with
    | [] => POk []
    | f :: fs' =>
        match (match f_conv f with Some hs => converter_type hs | None => POk (f_type f) end) with
        | PExc r => PExc r
        | POk t => match attr_hints fs' with
                   | PExc r => PExc r
                   | POk l => POk ((f_name f, t) :: l)
                   end
        end
    end.

  (** 857-880 *)
  Definition attrload (v : value) (t : ty) : M value :=
    match t with
    | TClass c =>
        match ci_attrs (class_of w c) with
        | None => raise (XRaw RAttr)
        | Some fs =>
            hints <- lift (attr_hints fs) ;;
            let necessary := map f_name (filter required_field fs) in
            let names := fold_left
                  (fun acc f =>
                     match str_get (mangle_key cfg) (f_meta f) with
                     | Some name => str_set name (f_name f) acc
                     | None => acc
                     end) fs [] in
            v' <- mangle names v t ;;
            objloader (map f_name fs) necessary hints v' t
        end
    | _ => raise (XRaw RAttr)
    end.

  (** 883-894 *)
  Definition strconsload (v : value) (t : ty) : M value :=
    match call_type t v with
    | POk r => ret r
    | PExc RValue => raise (XTL KValue (MPy RValue) [] (Some v) (Some t) [])
    | PExc RType => raise (XTL KType (MPy RType) [] (Some v) (Some t) [])
    | PExc r => raise (XTL KBase (MPy r) [] (Some v) (Some t) [])
    end.

  (** 897-898 *)
  Definition newtypeload (v : value) (t : ty) : M value :=
    match t with
    | TNewType _ super => load_with v super None
    | _ => raise (XRaw RAttr)
    end.

  (** a custom handler *)
  Fixpoint run_prog (p : hprog) : M value :=
    match p with
    | HPRet v => ret v
    | HPRaise e => raise e
    | HPLoad v t a k => o <- attempt (load_with v t a) ;; run_prog (k o)
    end.

  (** calling the function of a handler *)
  Definition body (h : handler) (v : value) (t : ty) : M value :=
    match h with
    | HNone => noneload v t
    | HUnion => unionload v t
    | HBasic => basicload v t
    | HEnum => enumload v t
    | HTuple => tupleload v t
    | HList => iterload KoList v t
    | HDict => dictload v t
    | HSet => iterload KoSet v t
    | HFrozen => iterload KoFrozen v t
    | HNamedTuple => namedtupleload v t
    | HDataclass => dataclassload v t
    | HForward => forwardrefload v t
    | HLiteral => literalload v t
    | HTypedDict => typeddictload v t
    | HDatetime => datetimeload v t
    | HPattern => patternload v t
    | HTimedelta => timedeltaload v t
    | HStrcons => strconsload v t
    | HAttrs => attrload v t
    | HAny => ret v                       (* 326-327 *)
    | HNewType => newtypeload v t
    | HCustom f => run_prog (f v t)
    end.
End Load.

(** Tying the knot: [n] bounds the nesting of handler calls. *)
Fixpoint run (w : world) (cfg : config) (n : nat) (h : handler) (v : value) (t : ty) {struct n} : M value :=
  match n with
  | 0 => fun s => (OOF, s)
  | S n' => body w cfg (run w cfg n') h v t
  end.

(** Loader.load(value, type_, annotation=a), with recursion budget [n] *)
Definition load_ann (w : world) (cfg : config) (n : nat) (v : value) (t : ty) (a : option ann) : M value :=
  load_with w cfg (run w cfg n) v t a.
(** Loader.load(value, type_) *)
Definition load (w : world) (cfg : config) (n : nat) (v : value) (t : ty) : M value :=
  load_ann w cfg n v t None.

(** A Loader with the default handlers (dataloader.py 166-243) *)
Definition std (w : world) (basic strcons : list cid)
           (cast extra rce deq : bool) (mk : string) (ud p563 : bool) : config :=
  mkConfig basic cast extra rce deq mk ud p563 (default_handlers w basic strcons).

(** dataloader.py 168, 189-198 *)
Definition default_basic : list cid := [CInt; CBool; CFloat; CStr; CNone].
Definition default_strcons : list cid :=
  map CUser ["Path"; "IPv4Address"; "IPv6Address"; "IPv4Network"; "IPv6Network";
             "IPv4Interface"; "IPv6Interface"; "UUID"].
(** Loader() *)
Definition default_config (w : world) : config :=
  std w default_basic default_strcons true false true true "name" false false.
