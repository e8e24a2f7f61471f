(** * HLoader: the Loader on objects with identity (C59)

    The handlers of dataloader.py again, on the heap of HDumper.v instead of
    trees: lists, dictionaries and objects have an identity, can be shared, and
    can be written to.  Only the default handlers.

    Simplifications: conditions, comparisons, hashes and the values stored in
    the exceptions are those of the tree which an object is ([look]; an object
    which contains itself has none, and there the model stops, as when the
    stack is exhausted).  What the functions of the library return is new, except
    the members of enums. *)

From Verif Require Import Loader Spec Vocab HDumper.

(** the objects which belong to the classes: the members of the enums, and the
    defaults of the fields (default=..., not default_factory=...) *)
Record env : Type := mkEnv {
  e_member : cid -> string -> href;
  e_default : cid -> string -> href
}.

Definition member_dec (p q : string * value) : {p = q} + {p <> q}.
Proof. decide equality; [apply value_eq_dec|apply string_dec]. Defined.

(** a new object for each part of the tree [v]; the members of the enums are
    the objects of the classes *)
Section Plant.
  Variable f : value -> heap -> href * heap.
  Definition plant_list : list value -> heap -> list href * heap :=
    fix go l h :=
    match l with
    | [] => ([], h)
    | x :: l' => let (y, h1) := f x h in let (ys, h2) := go l' h1 in (y :: ys, h2)
    end.
  Definition plant_fields : list (string * value) -> heap -> list (string * href) * heap :=
    fix go l h :=
    match l with
    | [] => ([], h)
    | (k, x) :: l' => let (y, h1) := f x h in let (ys, h2) := go l' h1 in ((k, y) :: ys, h2)
    end.
  Definition plant_items : list (value * value) -> heap -> list (href * href) * heap :=
    fix go l h :=
    match l with
    | [] => ([], h)
    | (k, x) :: l' =>
        let (z, h0) := f k h in let (y, h1) := f x h0 in let (ys, h2) := go l' h1 in ((z, y) :: ys, h2)
    end.
End Plant.
Definition place (o : hobj) (h : heap) : href * heap := (HR (List.length h), h ++ [o]).
Section Planting.
  Variable own : cid -> string -> value -> option href.
  Fixpoint plant (v : value) (h : heap) {struct v} : href * heap :=
  match v with
  | VList l => let (ys, h') := plant_list plant l h in place (HList ys) h'
  | VTuple l => let (ys, h') := plant_list plant l h in place (HTuple ys) h'
  | VSet l => let (ys, h') := plant_list plant l h in place (HSet ys) h'
  | VFrozen l => let (ys, h') := plant_list plant l h in place (HFrozen ys) h'
  | VDict d => let (ys, h') := plant_items plant d h in place (HDict ys) h'
  | VNT c fs => let (ys, h') := plant_fields plant fs h in place (HNT c ys) h'
  | VObj c fs => let (ys, h') := plant_fields plant fs h in place (HObj c ys) h'
  | VNamespace fs => let (ys, h') := plant_fields plant fs h in place (HNamespace ys) h'
  | VEnum c m x =>
      match own c m x with
      | Some y => (y, h)
      | None => let (y, h') := plant x h in place (HEnum c m y) h'
      end
  | _ => (HV v, h)
  end.
End Planting.
(** the object of the class, for a member which the class [c] declares *)
Definition own (w : world) (ev : env) (c : cid) (m : string) (x : value) : option href :=
  match ci_enum (class_of w c) with
  | Some ms => if in_dec member_dec (m, x) ms then Some (e_member ev c m) else None
  | None => None
  end.

(** the state: the caches of the Loader, and the heap *)
Notation LM := (MS (lstate * heap)).
Definition new_tree {St} (w : world) (ev : env) (v : value) : MS (St * heap) href :=
  fun s => let (y, h) := plant (own w ev) v (snd s) in (Ok y, (fst s, h)).

(** deep enough for every object which is a tree: no two of its parts which
    contain each other are at the same place *)
Definition full (h : heap) : nat := S (List.length h).
Definition see (h : heap) (x : href) : option value := read (full h) (at_ h) x.
Definition looks {St} (x : href) : MS (St * heap) value := h <- the_heap ;; budget (see h x).

(** x.items() *)
Definition hitems (h : heap) (x : href) : option (list (href * href)) :=
  match x with HR l => match nth_error h l with Some (HDict d) => Some d | _ => None end | HV _ => None end.
(** r[k] = y, in the dictionary at [l] *)
Definition sets {St} (l : loc) (k y : href) : MS (St * heap) unit :=
  h <- the_heap ;;
  match nth_error h l with
  | Some (HDict d) => d' <- budget (hdict_set (full h) h k y d) ;; store l (HDict d')
  | _ => raise (XRaw RType)
  end.
(** the same for a key which is not there *)
Definition adds {St} (l : loc) (k y : href) : MS (St * heap) unit :=
  h <- the_heap ;;
  match nth_error h l with
  | Some (HDict d) => store l (HDict (d ++ [(k, y)]))
  | _ => raise (XRaw RType)
  end.
Definition the_items {St} (l : loc) : MS (St * heap) (list (href * href)) :=
  h <- the_heap ;;
  match nth_error h l with Some (HDict d) => ret d | _ => raise (XRaw RType) end.
(** [look]s at several objects *)
Fixpoint looks_all {St} (fs : list (string * href)) : MS (St * heap) (list (string * value)) :=
  match fs with
  | [] => ret []
  | (k, y) :: fs' => v <- looks y ;; vs <- looks_all fs' ;; ret ((k, v) :: vs)
  end.

Section HLoad.
  Variable w : world.
  Variable cfg : config.
  Variable ev : env.

  (** ** Calling a class (see [construct], [call_type] in Py.v and Loader.v) *)

  (** the default of a field: the object of the class, or what a factory
      returns, which is new *)
  Definition hdefault (c : cid) (f : field) (sofar : list (string * href)) : option (LM href) :=
    match f_default f with
    | DNo => None
    | DValue _ => Some (ret (e_default ev c (f_name f)))
    | DFactory v => Some (new_tree w ev v)
    | DFactorySelf g => Some (vs <- looks_all sofar ;; new_tree w ev (g vs))
    end.
  Fixpoint hbind_nt (c : cid) (fs : list (string * option value)) (params : list (string * href))
    : option (list (string * href)) :=
    match fs with
    | [] => Some []
    | (k, d) :: fs' =>
        match str_get k params, d with
        | Some y, _ => option_map (cons (k, y)) (hbind_nt c fs' params)
        | None, Some _ => option_map (cons (k, e_default ev c k)) (hbind_nt c fs' params)
        | None, None => None
        end
    end.
  Fixpoint hbind_fields (argname : string -> string) (c : cid) (fs : list field)
           (params sofar : list (string * href)) : LM (list (string * href)) :=
    match fs with
    | [] => ret sofar
    | f :: fs' =>
        match (if f_init f then str_get (argname (f_name f)) params else None) with
        | Some y => hbind_fields argname c fs' params (sofar ++ [(f_name f, y)])
        | None =>
            match hdefault c f sofar with
            | Some d => y <- d ;; hbind_fields argname c fs' params (sofar ++ [(f_name f, y)])
            | None => if f_init f then raise (XRaw RType) else hbind_fields argname c fs' params sofar
            end
        end
    end.
  (** what __post_init__, converters and validators do with the fields: those
      which they leave as they are are the same objects, the others are new *)
  Fixpoint take (k : string) (v : value) (fs : list (string * href)) (vs : list (string * value))
    : option (href * list (string * href) * list (string * value)) :=
    match fs, vs with
    | (k1, y) :: fs', (_, v1) :: vs' =>
        if String.eqb k k1 then if value_eq_dec v1 v then Some (y, fs', vs') else None
        else match take k v fs' vs' with
             | Some (z, fs'', vs'') => Some (z, (k1, y) :: fs'', (k1, v1) :: vs'')
             | None => None
             end
    | _, _ => None
    end.
  Fixpoint hpost (fs : list (string * href)) (vs vs' : list (string * value)) : LM (list (string * href)) :=
    match vs' with
    | [] => ret []
    | (k, v') :: vs'' =>
        match take k v' fs vs with
        | Some (y, fs1, vs1) => ys <- hpost fs1 vs1 vs'' ;; ret ((k, y) :: ys)
        | None => y <- new_tree w ev v' ;; ys <- hpost fs vs vs'' ;; ret ((k, y) :: ys)
        end
    end.
  Definition hunexpected (allowed : list string) (params : list (string * href)) : bool :=
    existsb (fun kv => negb (mem_str (fst kv) allowed)) params.
  Definition hconstruct_fields (argname : string -> string) (c : cid) (fs : list field)
             (params : list (string * href)) : LM href :=
    if hunexpected (map (fun f => argname (f_name f)) (filter f_init fs)) params
    then raise (XRaw RType)
    else ys <- hbind_fields argname c fs params [] ;;
         vs <- looks_all ys ;;
         vs' <- lift (ci_post (class_of w c) vs) ;;
         ys' <- hpost ys vs vs' ;;
         r <- alloc (HObj c ys') ;; ret (HR r).
  (** type_( **params) *)
  Definition hconstruct (t : ty) (params : list (string * href)) : LM href :=
    match t with
    | TClass c =>
        let ci := class_of w c in
        match ci_nt ci, ci_dc ci, ci_attrs ci, ci_td ci with
        | Some fs, _, _, _ =>
            if hunexpected (map fst fs) params then raise (XRaw RType)
            else match hbind_nt c fs params with
                 | Some ys => r <- alloc (HNT c ys) ;; ret (HR r)
                 | None => raise (XRaw RType)
                 end
        | None, Some fs, _, _ => hconstruct_fields (fun s => s) c fs params
        | None, None, Some fs, _ => hconstruct_fields strip_underscore c fs params
        | None, None, None, Some _ =>
            r <- alloc (HDict (map (fun ky => (HV (VStr (fst ky)), snd ky)) params)) ;; ret (HR r)
        | None, None, None, None => raise (XRaw RType)
        end
    | _ => raise (XRaw RType)
    end.

  Definition lib (r : pyres value) : LM href := v <- lift r ;; new_tree w ev v.
  (** type_(x): the members of an enum are the objects of the class *)
  Definition hcall_type (t : ty) (x : href) (v : value) : LM href :=
    match t with
    | TClass c =>
        match ci_enum (class_of w c) with
        | Some ms =>
            if cid_eqb (type_of v) c then ret x
            else match find (fun m => py_eqb v (snd m)) ms with
                 | Some (name, _) => ret (e_member ev c name)
                 | None => raise (XRaw RValue)
                 end
        | None => lib (w_call w t v)
        end
    | _ => lib (w_call w t v)
    end.

  (** ** The handlers *)
  Variable hcall : handler -> href -> ty -> LM href.

  (** dataloader.py 263-303 *)
  Definition hload_with (x : href) (t : ty) (a : option ann) : LM href :=
    v <- looks x ;;
    h <- caches (fun s =>
            match ty_get t (st_index s) with
            | Some h => (Ok h, s)
            | None =>
                match find_handler cfg t with
                | POk h => (Ok h, register w t (set_index (cons (t, h)) s))
                | PExc RValue =>
                    (Exc (XTL KType (MCannotDeal t) [] (Some v) (Some t) []), s)
                | PExc r => (Exc (XRaw r), s)
                end
            end) ;;
    catch (hcall h x t)
          (fun e => if is_tl e
                    then raise (push_trace (v, t, a) e)
                    else raise (XRaw RAssert)).

  (** 306-323 *)
  Definition hforwardrefload (x : href) (v : value) (t : ty) : LM href :=
    s <- caches get_st ;;
    match st_frefs s with
    | None => raise (XTL KBase MFrefDisabled [] (Some v) (Some t) [])
    | Some fr =>
        match t with
        | TForward n =>
            match str_get n fr with
            | None => raise (XTL KValue (MFrefUnknown n) [] (Some v) (Some t) [])
            | Some t' => hload_with x t' (Some (AnForward n))
            end
        | _ => raise (XRaw RAttr)
        end
    end.

  (** 330-337: the value itself *)
  Definition hliteralload (x : href) (v : value) (t : ty) : LM href :=
    match t with
    | TLiteral vals =>
        if py_in v vals then ret x
        else raise (XTL KValue (MNotLiteral t) [] (Some v) (Some t) [])
    | _ => raise (XRaw RAttr)
    end.

  (** 340-362 *)
  Definition hbasicload (x : href) (v : value) (t : ty) : LM href :=
    if exact v t then ret x
    else if basiccast cfg then
      o <- attempt (hcall_type t x v) ;;
      match o with
      | inl y => ret y
      | inr (XRaw RValue) => raise (XTL KValue (MPy RValue) [] (Some v) (Some t) [])
      | inr (XRaw RType) => raise (XTL KType (MPy RType) [] (Some v) (Some t) [])
      | inr (XRaw r) => raise (XTL KBase (MPy r) [] (Some v) (Some t) [])
      | inr e => raise e
      end
    else raise (XTL KValue (MGot v t) [] (Some v) (Some t) []).

  (** 529-542: a new dictionary with the same values *)
  Definition has_dict (x : href) : LM href :=
    h <- the_heap ;;
    match x with
    | HR l =>
        match nth_error h l with
        | Some (HNamespace fs) =>
            if dictequivalence cfg
            then r <- alloc (HDict (map (fun ky => (HV (VStr (fst ky)), snd ky)) fs)) ;; ret (HR r)
            else ret x
        | _ => ret x
        end
    | HV _ => ret x
    end.

  Definition hashes (x : href) : LM bool := h <- the_heap ;; budget (hhash w (full h) h x).

  (** 407-412; the comprehension fills the new dictionary at [r] *)
  Fixpoint hdict_fast (kt vt : ty) (kf : handler) (vf : option handler)
           (d : list (href * href)) (r : loc) : LM href :=
    match d with
    | [] => ret (HR r)
    | (k, x) :: d' =>
        kv <- looks k ;;
        k' <- (if basicb cfg kt && isinst w kv kt then ret k else hcall kf k kt) ;;
        xv <- looks x ;;
        x' <- (if basicb cfg vt && isinst w xv vt then ret x
               else match vf with
                    | Some h => hcall h x vt
                    | None => raise (XRaw RName)
                    end) ;;
        b <- hashes k' ;;
        if b : bool then _ <- sets r k' x' ;; hdict_fast kt vt kf vf d' r
        else raise (XRaw RType)
    end.
  (** 417-420 *)
  Fixpoint hdict_slow (kt vt : ty) (d : list (href * href)) (r : loc) : LM href :=
    match d with
    | [] => ret (HR r)
    | (k, x) :: d' =>
        kv <- looks k ;;
        k' <- hload_with k kt (Some (AnKey kv)) ;;
        xv <- looks x ;;
        x' <- hload_with x vt (Some (AnValue xv)) ;;
        b <- hashes k' ;;
        if b : bool then _ <- sets r k' x' ;; hdict_slow kt vt d' r
        else raise (XRaw RType)
    end.
  (** 365-422 *)
  Definition hdictload (x : href) (v : value) (t : ty) : LM href :=
    match ty_args t with
    | None => raise (XRaw RAttr)
    | Some [kt; vt] =>
        kf0 <- caches (lookup_handler cfg (XTL KValue (MCannotKey kt t) [] (Some v) (Some kt) []) kt) ;;
        '(kf, vf) <- caches
          (fun s =>
             match ty_get vt (st_index s) with
             | Some h => (Ok (kf0, Some h), s)
             | None =>
                 match find_handler cfg vt with
                 | POk h => (Ok (h, None), set_index (cons (vt, h)) s)   (* line 396 *)
                 | PExc RValue =>
                     (Exc (XTL KValue (MCannotVal vt t) [] (Some v) (Some vt) []), s)
                 | PExc r => (Exc (XRaw r), s)
                 end
             end) ;;
        x' <- has_dict x ;;
        h' <- the_heap ;;
        let v' := as_dict cfg v in
        catch
          (match hitems h' x' with
           | Some d => r <- alloc (HDict []) ;; hdict_fast kt vt kf vf d r
           | None => raise (XRaw RAttr)
           end)
          (fun _ =>
             catch
               (match hitems h' x' with
                | Some d => r <- alloc (HDict []) ;; hdict_slow kt vt d r
                | None => raise (XRaw RAttr)
                end)
               (fun e =>
                  match e with
                  | XRaw RAttr => raise (XTL KAttr (MPy RAttr) [] (Some v') (Some t) [])
                  | XTL KAttr m _ _ _ _ => raise (XTL KAttr (MNested m) [] (Some v') (Some t) [])
                  | _ => raise e
                  end))
    | Some _ => raise (XRaw RValue)
    end.

  (** list(...), tuple(...), set(...), frozenset(...) of the loaded items *)
  Definition hcoll (k : coll) (l : list href) : hobj :=
    match k with
    | KoList => HList l | KoTuple => HTuple l | KoSet => HSet l | KoFrozen => HFrozen l
    end.
  Fixpoint hmem (y : value) (h : heap) (l : list href) : option bool :=
    match l with
    | [] => Some false
    | z :: l' => match see h z with
                 | Some b => if py_eqb y b then Some true else hmem y h l'
                 | None => None
                 end
    end.
  Definition hcoll_add (k : coll) (y : href) (acc : list href) : LM (list href) :=
    match k with
    | KoList | KoTuple => ret (acc ++ [y])
    | KoSet | KoFrozen =>
        b <- hashes y ;;
        if b : bool then
          a <- looks y ;;
          h <- the_heap ;;
          i <- budget (hmem a h acc) ;;
          ret (if i : bool then acc else acc ++ [y])
        else raise (XRaw RType)
    end.
  Definition hitem_error {A} (v : value) (t : ty) (i : nat) (e : exn) : LM A :=
    match e with
    | XTL _ _ _ _ _ _ => raise (push_trace (v, t, Some (AnIndex i)) e)
    | XRaw RType => raise (XTL KType (MPy RType) [] (Some v) (Some t) [])
    | XRaw _ => raise (XTL KType MNotSubclass [] None None [])
    end.
  (** 929-944 *)
  Fixpoint hiter_loop (k : coll) (mp : bool) (f : href -> LM href) (v : value) (t : ty)
           (l : list href) (i : nat) (acc : list href) : LM href :=
    match l with
    | [] => r <- alloc (hcoll k acc) ;; ret (HR r)
    | x :: l' =>
        r <- attempt (y <- f x ;; hcoll_add k y acc) ;;
        match r with
        | inl acc' => hiter_loop k mp f v t l' (S i) acc'
        | inr e => if stops mp e then r <- alloc (hcoll k acc) ;; ret (HR r) else hitem_error v t i e
        end
    end.
  (** 930-935: instances of basic types are kept *)
  Definition hiter_item (h : handler) (et : ty) (x : href) : LM href :=
    v <- looks x ;;
    if basicb cfg et then
      if isinst w v et then ret x else hcall h x et
    else match et with
         | TGen _ OUnion (Some us) =>
             if forallb (basicb cfg) us && mem_ty (TClass (type_of v)) us then ret x
             else hcall h x et
         | _ => hcall h x et
         end.
  (** 901-944 *)
  Definition hiterload (k : coll) (x : href) (v : value) (t : ty) : LM href :=
    match v with
    | VDict _ => raise (XTL KType MDictIter [] (Some v) (Some t) [])
    | _ =>
        match ty_args t with
        | None => raise (XRaw RAttr)
        | Some [] => raise (XRaw RIndex)
        | Some (et :: _) =>
            hd <- caches (lookup_handler cfg (XTL KType (MCannotDeal et) [] (Some v) (Some et) []) et) ;;
            h <- the_heap ;;
            match hiter h x with
            | None => raise (XTL KType (MPy RType) [] (Some v) (Some t) [])
            | Some l => hiter_loop k (mapped cfg et) (hiter_item hd et) v t l 0 []
            end
        end
    end.

  (** 444-451 *)
  Fixpoint htuple_loop (v : value) (t : ty) (l : list href) (ts : list ty)
           (i : nat) (acc : list href) : LM href :=
    match ts, l with
    | et :: ts', x :: l' =>
        r <- attempt
               (h <- caches (fun s => match ty_get et (st_index s) with
                               | Some h => (Ok h, s)
                               | None => lift (find_handler cfg et) s
                               end) ;;
                xv <- looks x ;;
                if basicb cfg et && exact xv et then ret x else hcall h x et) ;;
        match r with
        | inl y => htuple_loop v t l' ts' (S i) (acc ++ [y])
        | inr e => hitem_error v t i e
        end
    | _, _ => r <- alloc (HTuple acc) ;; ret (HR r)
    end.
  (** 425-460 *)
  Definition htupleload (x : href) (v : value) (t : ty) : LM href :=
    match ty_args t with
    | None => raise (XRaw RAttr)
    | Some [_; TEllipsis] => hiterload KoTuple x v t
    | Some ts =>
        match v with
        | VDict _ => raise (XTL KType MDictTuple [] (Some v) (Some t) [])
        | _ =>
            h <- the_heap ;;
            match hiter h x with
            | None => raise (XRaw RType)
            | Some l =>
                if failonextra cfg && Nat.ltb (List.length ts) (List.length l)
                then raise (XTL KValue (MTooLong t) [] (Some v) (Some t) [])
                else if Nat.ltb (List.length l) (List.length ts)
                then raise (XTL KValue (MTooShort t) [] (Some v) (Some t) [])
                else htuple_loop v t l ts 0 []
            end
        end
    end.

  (** 463-487: the new dictionary [r] gets the items of [d] *)
  Fixpoint hmangle_loop (names : list (string * string)) (skip : list string)
           (d : list (href * href)) (r : loc) : LM (unit + string) :=
    match d with
    | [] => ret (inl tt)
    | (k, x) :: d' =>
        kv <- looks k ;;
        match kv with
        | VStr s =>
            match str_get s names with
            | Some s' => _ <- sets r (HV (VStr s')) x ;; hmangle_loop names skip d' r
            | None =>
                if mem_str s skip then
                  if failonextra cfg then ret (inr s) else hmangle_loop names skip d' r
                else _ <- sets r k x ;; hmangle_loop names skip d' r
            end
        | _ => _ <- sets r k x ;; hmangle_loop names skip d' r
        end
    end.
  Definition hmangle (names : list (string * string)) (x : href) (v : value) (t : ty) : LM href :=
    match names with
    | [] => ret x
    | _ =>
        h <- the_heap ;;
        match hitems h x with
        | Some d =>
            r <- alloc (HDict []) ;;
            o <- hmangle_loop names (map snd names) d r ;;
            match o with
            | inl _ => ret (HR r)
            | inr k => raise (XTL KValue (MExtraField k) [] (Some v) (Some t) [])
            end
        | None => raise (XTL KAttr (MPy RAttr) [] (Some v) (Some t) [])
        end
    end.

  (** 579-603: the new dictionary [r] is params.  The keys of a dictionary are
      distinct, so that params[k] = ... always adds an item. *)
  Fixpoint hfields_loop (fields : list string) (hints : list (string * ty)) (v : value) (t : ty)
           (d : list (href * href)) (r : loc) : LM unit :=
    match d with
    | [] => ret tt
    | (k, x) :: d' =>
        kv <- looks k ;;
        match kv with
        | VStr s =>
            if mem_str s fields then
              match str_get s hints with
              | None => raise (XRaw RKey)
              | Some ft =>
                  h <- caches (lookup_handler cfg (XTL KType (MCannotDeal ft) [] (Some v) (Some ft) []) ft) ;;
                  y <- catch (hcall h x ft)
                             (fun e => raise (push_trace (v, t, Some (AnField s)) e)) ;;
                  _ <- adds r (HV (VStr s)) y ;;
                  hfields_loop fields hints v t d' r
              end
            else hfields_loop fields hints v t d' r
        | _ => hfields_loop fields hints v t d' r
        end
    end.
  Definition keyword (kx : href * href) : list (string * href) :=
    match fst kx with HV (VStr s) => [(s, snd kx)] | _ => [] end.

  (** 545-609 *)
  Definition hobjloader (fields necessary : list string) (hints : list (string * ty))
             (x : href) (v : value) (t : ty) : LM href :=
    x' <- has_dict x ;;
    h <- the_heap ;;
    match as_dict cfg v, hitems h x' with
    | VDict d, Some d' =>
        let v' := VDict d in
        match filter (fun s => negb (has_key d s)) necessary with
        | (_ :: _) as missing =>
            raise (XTL KValue (MMissing missing t) [] (Some v') (Some t) [])
        | [] =>
            let extra := map fst (filter (fun kv => negb (key_in fields kv)) d) in
            if failonextra cfg && negb (Nat.eqb (List.length extra) 0) then
              if all_str extra
              then raise (XTL KValue (MExtra extra t) [] (Some v') (Some t) [])
              else raise (XRaw RType)
            else
              r <- alloc (HDict []) ;;
              _ <- hfields_loop fields hints v' t d' r ;;
              params <- the_items r ;;
              o <- attempt (hconstruct t (flat_map keyword params)) ;;
              match o with
              | inl y => ret y
              | inr (XRaw RType) => raise (XTL KType (MCtor RType) [] None None [])
              | inr (XRaw RValue) => raise (XTL KValue (MCtor RValue) [] None None [])
              | inr e => raise e
              end
        end
    | _, _ => raise (XTL KAttr (MPy RAttr) [] (Some v) (Some t) [])
    end.

  (** 490-526 *)
  Definition hdataclassload (x : href) (v : value) (t : ty) : LM href :=
    oi <- caches (fun s =>
             match ty_get t (st_fields s) with
             | Some oi => (Ok oi, s)
             | None =>
                 match t with
                 | TClass c =>
                     match ci_dc (class_of w c) with
                     | None => (Exc (XRaw RAttr), s)
                     | Some fs =>
                         match dataclass_info w cfg c fs with
                         | POk oi => (Ok oi, set_fields (cons (t, oi)) s)
                         | PExc r => (Exc (XRaw r), s)
                         end
                     end
                 | _ => (Exc (XRaw RAttr), s)
                 end
             end) ;;
    x' <- hmangle (oi_names oi) x v t ;;
    v' <- looks x' ;;
    hobjloader (oi_fields oi) (oi_necessary oi) (oi_hints oi) x' v' t.

  (** 612-624 *)
  Definition hnamedtupleload (x : href) (v : value) (t : ty) : LM href :=
    match t with
    | TClass c =>
        match ci_nt (class_of w c) with
        | None => raise (XRaw RAttr)
        | Some nt =>
            hints <- lift (if pep563 cfg then ci_hints (class_of w c) else POk (ci_ann (class_of w c))) ;;
            let fields := map fst hints in
            let optional := map fst (filter (fun f => match snd f with Some _ => true | None => false end) nt) in
            let necessary := filter (fun s => negb (mem_str s optional)) fields in
            hobjloader fields necessary hints x v t
        end
    | _ => raise (XRaw RAttr)
    end.

  (** 627-651 *)
  Definition htypeddictload (x : href) (v : value) (t : ty) : LM href :=
    match t with
    | TClass c =>
        match ci_td (class_of w c) with
        | None => raise (XRaw RAttr)
        | Some required =>
            s <- caches get_st ;;
            hints <- lift (if pep563 cfg then ci_hints (class_of w c) else POk (annotations w s c)) ;;
            let fields := map fst hints in
            let notreq := map fst (filter (fun kt => is_notrequired (snd kt)) hints) in
            let necessary := filter (fun k => negb (mem_str k notreq)) required in
            let hints' := map (fun kt => (fst kt, strip_notrequired (snd kt))) hints in
            _ <- caches (mod_st (fun s => if pep563 cfg then s else set_stripped (cons c) s)) ;;
            hobjloader fields necessary hints' x v t
        end
    | _ => raise (XRaw RAttr)
    end.

  (** 857-880 *)
  Definition hattrload (x : href) (v : value) (t : ty) : LM href :=
    match t with
    | TClass c =>
        match ci_attrs (class_of w c) with
        | None => raise (XRaw RAttr)
        | Some fs =>
            hints <- lift (attr_hints fs) ;;
            let necessary := map f_name (filter required_field fs) in
            let names := fold_left
                  (fun acc f =>
                     match str_get (mangle_key cfg) (f_meta f) with
                     | Some name => str_set name (f_name f) acc
                     | None => acc
                     end) fs [] in
            x' <- hmangle names x v t ;;
            v' <- looks x' ;;
            hobjloader (map f_name fs) necessary hints x' v' t
        end
    | _ => raise (XRaw RAttr)
    end.

  (** 712-738 *)
  Fixpoint htry_members (x : href) (v : value) (t : ty) (ts : list ty)
           (n : nat) (r : href) (exs : list exn) : LM (nat * href * list exn) :=
    match ts with
    | [] => ret (n, r, exs)
    | mt :: ts' =>
        o <- attempt
               (h <- caches (lookup_handler cfg (XTL KValue (MCannotKey mt t) [] (Some v) (Some mt) []) mt) ;;
                hcall h x mt) ;;
        match o with
        | inl r' =>
            if uniondebugconflict cfg then htry_members x v t ts' (S n) r' exs
            else ret (S n, r', exs)
        | inr (XRaw k) => raise (XRaw k)
        | inr e => htry_members x v t ts' n r (exs ++ [push_trace (v, t, Some (AnUnion mt)) e])
        end
    end.
  (** 654-758; [prefer] only looks at the value *)
  Definition hunionload (x : href) (v : value) (t : ty) : LM href :=
    match ty_args t with
    | None => raise (XRaw RAttr)
    | Some args =>
        let vt := TClass (type_of v) in
        if basicb cfg vt && mem_ty vt args then ret x
        else
          let sorted := filter (fun y => negb (basicb cfg y)) args ++ filter (basicb cfg) args in
          sorted' <- caches (prefer w v t args sorted) ;;
          '(n, r, exs) <- htry_members x v t sorted' 0 (HV VNone) [] ;;
          match n with
          | 1 => ret r
          | 0 => raise (XTL KValue (MUnion (type_of v) t) [] (Some v) (Some t) exs)
          | _ => raise (XTL KType (MConflict (type_of v) t n) [] (Some v) (Some t) exs)
          end
    end.

  (** 779-785 *)
  Fixpoint henum_hints (x : href) (t : ty) (ts : list ty) (exs : list exn) : LM (href + list exn) :=
    match ts with
    | [] => ret (inr exs)
    | ht :: ts' =>
        o <- attempt (y <- hload_with x ht (Some (AnUnion ht)) ;; a <- looks y ;; hcall_type t y a) ;;
        match o with
        | inl r => ret (inl r)
        | inr e => henum_hints x t ts' (exs ++ [e])
        end
    end.
  (** 761-796 *)
  Definition henumload (x : href) (v : value) (t : ty) : LM href :=
    o <- attempt (hcall_type t x v) ;;
    match o with
    | inl y => ret y
    | inr _ =>
        match t with
        | TClass c =>
            hints <- lift (ci_hints (class_of w c)) ;;
            o <- henum_hints x t (map snd hints) [] ;;
            match o with
            | inl r => ret r
            | inr exs => raise (XTL KValue (MEnum (type_of v) t) [] (Some v) (Some t) exs)
            end
        | _ => raise (XRaw RAttr)
        end
    end.

  (** 883-894 *)
  Definition hstrconsload (x : href) (v : value) (t : ty) : LM href :=
    o <- attempt (hcall_type t x v) ;;
    match o with
    | inl y => ret y
    | inr (XRaw RValue) => raise (XTL KValue (MPy RValue) [] (Some v) (Some t) [])
    | inr (XRaw RType) => raise (XTL KType (MPy RType) [] (Some v) (Some t) [])
    | inr (XRaw r) => raise (XTL KBase (MPy r) [] (Some v) (Some t) [])
    | inr e => raise e
    end.

  (** 897-898 *)
  Definition hnewtypeload (x : href) (t : ty) : LM href :=
    match t with
    | TNewType _ super => hload_with x super None
    | _ => raise (XRaw RAttr)
    end.

  (** the handlers whose result is what a function of the library makes of the
      value: 799-806 (None), 809-819, 822-832, 835-839 *)
  Definition made (res : M value) : LM href := y <- caches res ;; new_tree w ev y.

  (** calling the function of a handler *)
  Definition lbody (hd : handler) (x : href) (t : ty) : LM href :=
    v <- looks x ;;
    match hd with
    | HNone => made (noneload v t)
    | HUnion => hunionload x v t
    | HBasic => hbasicload x v t
    | Loader.HEnum => henumload x v t
    | Loader.HTuple => htupleload x v t
    | Loader.HList => hiterload KoList x v t
    | Loader.HDict => hdictload x v t
    | Loader.HSet => hiterload KoSet x v t
    | Loader.HFrozen => hiterload KoFrozen x v t
    | HNamedTuple => hnamedtupleload x v t
    | HDataclass => hdataclassload x v t
    | HForward => hforwardrefload x v t
    | HLiteral => hliteralload x v t
    | HTypedDict => htypeddictload x v t
    | HDatetime => made (datetimeload w v t)
    | HPattern => made (patternload w v t)
    | HTimedelta => made (timedeltaload w v t)
    | HStrcons => hstrconsload x v t
    | HAttrs => hattrload x v t
    | HAny => ret x                       (* 326-327 *)
    | HNewType => hnewtypeload x t
    | HCustom _ => raise (XRaw (ROther "not modelled"))
    end.
End HLoad.

Fixpoint lrun (w : world) (cfg : config) (ev : env) (n : nat) (hd : handler) (x : href) (t : ty) {struct n} : LM href :=
  match n with
  | 0 => fun s => (OOF, s)
  | S n' => lbody w cfg ev (lrun w cfg ev n') hd x t
  end.
(** Loader.load(x, t) *)
Definition hload (w : world) (cfg : config) (ev : env) (n : nat) (x : href) (t : ty) : LM href :=
  hload_with w cfg (lrun w cfg ev n) x t None.

(** ** Vocabulary *)

(** load(x, t) with the caches [s] and the heap [h] finishes with the outcome
    [r], the caches [s'] and the heap [h'] *)
Definition hloads (w : world) (cfg : config) (ev : env) (s : lstate) (h : heap) (x : href) (t : ty)
           (r : res href) (s' : lstate) (h' : heap) : Prop :=
  r <> OOF /\ exists n, hload w cfg ev n x t (s, h) = (r, (s', h')).

(** what an object consists of *)
Definition parts (o : hobj) : list href :=
  match o with
  | HList l | HTuple l | HSet l | HFrozen l => l
  | HDict d => map fst d ++ map snd d
  | HNT _ fs | HObj _ fs | HNamespace fs => map snd fs
  | HEnum _ _ y => [y]
  end.
(** the object at the place [l] is [x], or a part of it *)
Inductive inside_of (h : heap) : href -> loc -> Prop :=
| io_self l : inside_of h (HR l) l
| io_part l o y l' : at_ h l = Some o -> In y (parts o) -> inside_of h y l' -> inside_of h (HR l) l'.
(** [x] is made of the objects at the places [ls], one for each part, of
    scalars, and of objects at places [L] *)
Inductive made_from (h : heap) (L : loc -> Prop) : href -> list loc -> Prop :=
| mf_scalar v : scalar v = true -> made_from h L (HV v) []
| mf_old l : L l -> made_from h L (HR l) []
| mf_new l o lss : at_ h l = Some o -> Forall2 (made_from h L) (parts o) lss -> made_from h L (HR l) (l :: List.concat lss).

(** the enum members and the defaults of the classes are in the heap *)
Record class_objects (w : world) (ev : env) (h : heap) : Prop := mkClassObjects {
  co_member : forall c ms m x, ci_enum (class_of w c) = Some ms -> In (m, x) ms ->
    object h (e_member ev c m) (VEnum c m x);
  co_nt : forall c fs k d, ci_nt (class_of w c) = Some fs -> In (k, Some d) fs -> object h (e_default ev c k) d;
  co_field : forall c fs f d, ci_dc (class_of w c) = Some fs \/ ci_attrs (class_of w c) = Some fs ->
    In f fs -> f_default f = DValue d -> object h (e_default ev c (f_name f)) d
}.
(** the object [y] is a member of an enum, or the default of a field *)
Definition class_object (w : world) (ev : env) (y : href) : Prop :=
  (exists c ms m x, ci_enum (class_of w c) = Some ms /\ In (m, x) ms /\ y = e_member ev c m) \/
  (exists c fs k d, ci_nt (class_of w c) = Some fs /\ In (k, Some d) fs /\ y = e_default ev c k) \/
  (exists c fs f d, (ci_dc (class_of w c) = Some fs \/ ci_attrs (class_of w c) = Some fs) /\
     In f fs /\ f_default f = DValue d /\ y = e_default ev c (f_name f)).
(** an object which is a member of an enum is the object of the class: there are
    no copies of members *)
Definition only_members (w : world) (ev : env) (h : heap) : Prop := forall l c ms m x,
  ci_enum (class_of w c) = Some ms -> In (m, x) ms -> object h (HR l) (VEnum c m x) -> HR l = e_member ev c m.
(** the object at [l] belongs to a class *)
Definition of_class (w : world) (ev : env) (h : heap) (l : loc) : Prop :=
  exists y, class_object w ev y /\ inside_of h y l.

(** the arguments of the constructor of a class have different names *)
Record distinct_arguments (w : world) : Prop := mkDistinct {
  da_nt : forall c fs, ci_nt (class_of w c) = Some fs -> NoDup (map fst fs);
  da_dc : forall c fs, ci_dc (class_of w c) = Some fs -> NoDup (map f_name (filter f_init fs));
  da_attrs : forall c fs, ci_attrs (class_of w c) = Some fs ->
    NoDup (map (fun f => strip_underscore (f_name f)) (filter f_init fs))
}.

(** lists, tuples, sets, frozen sets, dictionaries and argparse.Namespace *)
Definition basket (v : value) : bool :=
  match v with VList _ | VTuple _ | VSet _ | VFrozen _ | VDict _ | VNamespace _ => true | _ => false end.
Definition container (c : cid) : bool :=
  match c with CList | CTuple | CSet | CFrozen | CDict | CNamespace => true | _ => false end.
(** made of those, and of scalars *)
Definition data (v : value) : Prop := forall z, inside v z -> scalar z = true \/ basket z = true.

(** loading [t] never means keeping a container which is in the data: no Any,
    no container inside of Literal[...] or among the basic types.  The names of
    forward references as in C01. *)
Record renews (w : world) (basic strcons : list cid) (cfg : config) (nm : string -> option ty) (s : lstate) (t : ty) : Prop := mkRenews {
  rn_any : ~ reach w (pep563 cfg) nm t TAny;
  rn_literal : forall vals l, reach w (pep563 cfg) nm t (TLiteral vals) -> In l vals -> plain_literal l;
  rn_basic : forall c, container c = true -> ~ In c basic /\ ~ In c strcons;
  rn_known : forall n t', reach w (pep563 cfg) nm t (TForward n) -> knows s n t' -> nm n = Some t';
  rn_names : forall n t', reach w (pep563 cfg) nm t (TForward n) -> w_name w t' = Some n -> (exists t'', knows s n t'') \/ nm n = Some t'
}.
