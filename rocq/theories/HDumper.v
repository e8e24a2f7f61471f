(** * HDumper: the Dumper on objects with identity (C57)

    In [Dumper] data are trees.  Here lists, dictionaries and objects live in a
    heap, can be shared, and can be written to; the handlers of datadumper.py
    create their results with [alloc] and fill them with [store], as the
    displays and comprehensions of Python do.  Only the default handlers. *)

From Verif Require Import Dumper.

Definition loc := nat.
(** a Python object: something immutable without parts (numbers, strings,
    dates, paths...), or an object in the heap *)
Inductive href : Type :=
| HV (v : value)
| HR (l : loc).
(** the objects in the heap *)
Inductive hobj : Type :=
| HList (l : list href)
| HTuple (l : list href)
| HSet (l : list href)
| HFrozen (l : list href)
| HDict (d : list (href * href))
| HNT (c : cid) (fs : list (string * href))
| HObj (c : cid) (fs : list (string * href))
| HEnum (c : cid) (m : string) (x : href)
| HNamespace (fs : list (string * href)).
Definition heap := list hobj.
(** what is where in the heap *)
Definition contents := loc -> option hobj.
Notation at_ h := (nth_error (A := hobj) h).

Fixpoint put (h : heap) (l : loc) (o : hobj) : heap :=
  match h, l with
  | [], _ => []
  | _ :: h', 0 => o :: h'
  | o' :: h', S l' => o' :: put h' l' o
  end.

Fixpoint mapo {A B} (f : A -> option B) (l : list A) : option (list B) :=
  match l with
  | [] => Some []
  | x :: l' => match f x, mapo f l' with Some y, Some ys => Some (y :: ys) | _, _ => None end
  end.

(** numbers, strings, dates, paths...: neither collections nor instances of
    dataclass, attrs, NamedTuple, Enum or argparse.Namespace. *)
Definition scalar (v : value) : bool :=
  match v with
  | VList _ | VTuple _ | VSet _ | VFrozen _ | VDict _ | VNT _ _ | VObj _ _ | VEnum _ _ _ | VNamespace _ => false
  | _ => true
  end.

(** the tree which the object is, looking [n] levels deep; None: deeper *)
Fixpoint read (n : nat) (h : contents) (x : href) {struct n} : option value :=
  match x with
  | HV v => if scalar v then Some v else None
  | HR l =>
      match n with
      | 0 => None
      | S n' =>
          let field := fun kx : string * href => option_map (pair (fst kx)) (read n' h (snd kx)) in
          let item := fun kx : href * href =>
            match read n' h (fst kx), read n' h (snd kx) with Some k, Some y => Some (k, y) | _, _ => None end in
          match h l with
          | None => None
          | Some (HList xs) => option_map VList (mapo (read n' h) xs)
          | Some (HTuple xs) => option_map VTuple (mapo (read n' h) xs)
          | Some (HSet xs) => option_map VSet (mapo (read n' h) xs)
          | Some (HFrozen xs) => option_map VFrozen (mapo (read n' h) xs)
          | Some (HDict d) => option_map VDict (mapo item d)
          | Some (HNT c fs) => option_map (VNT c) (mapo field fs)
          | Some (HObj c fs) => option_map (VObj c) (mapo field fs)
          | Some (HEnum c m y) => option_map (VEnum c m) (read n' h y)
          | Some (HNamespace fs) => option_map VNamespace (mapo field fs)
          end
      end
  end.

(** the state: the caches of the Dumper (here), or of the Loader (HLoader.v),
    and the heap *)
Notation HM := (MS (dstate * heap)).
Definition alloc {St} (o : hobj) : MS (St * heap) loc := fun s => (Ok (List.length (snd s)), (fst s, snd s ++ [o])).
Definition store {St} (l : loc) (o : hobj) : MS (St * heap) unit := fun s => (Ok tt, (fst s, put (snd s) l o)).
Definition the_heap {St} : MS (St * heap) heap := fun s => (Ok (snd s), s).
(** a function of the model without heap, on the caches alone *)
Definition caches {St A} (m : MS St A) : MS (St * heap) A := fun s => let (r, ds) := m (fst s) in (r, (ds, snd s)).
Definition budget {St A} (o : option A) : MS (St * heap) A := match o with Some a => ret a | None => fun s => (OOF, s) end.

Section HDump.
  Variable w : world.
  Variable cfg : dconfig.
  (** how deep conditions and comparisons can look *)
  Variable m : nat.

  (** what isinstance, == and hash see of the object *)
  Definition look (x : href) : HM value := h <- the_heap ;; budget (read m (at_ h) x).

  Definition fields_of (h : heap) (x : href) : list (string * href) :=
    match x with
    | HR l => match nth_error h l with Some (HNT _ fs) | Some (HObj _ fs) => fs | _ => [] end
    | HV _ => []
    end.
  Definition hgetattr (h : heap) (x : href) (n : string) : pyres href :=
    match str_get n (fields_of h x) with Some y => POk y | None => PExc RAttr end.
  (** iter(x) *)
  Definition hiter (h : heap) (x : href) : option (list href) :=
    match x with
    | HV v => option_map (map HV) (iter v)
    | HR l => match nth_error h l with
              | Some (HList xs) | Some (HTuple xs) | Some (HSet xs) | Some (HFrozen xs) => Some xs
              | Some (HDict d) => Some (map fst d)
              | Some (HNT _ fs) => Some (map snd fs)
              | _ => None
              end
    end.
  (** hash(x) works *)
  Definition hhash (h : heap) (x : href) : option bool :=
    match x with
    | HV v => Some (hashable w v)
    | HR l => match nth_error h l with
              | Some (HList _) | Some (HDict _) | Some (HSet _) => Some false
              | _ => option_map (hashable w) (read m (at_ h) x)
              end
    end.
  (** r[k] = y, in the dictionary at [l] *)
  Fixpoint hdict_set (h : heap) (k y : href) (d : list (href * href)) : option (list (href * href)) :=
    match d with
    | [] => Some [(k, y)]
    | (k1, y1) :: d' =>
        match read m (at_ h) k, read m (at_ h) k1 with
        | Some a, Some a1 => if py_eqb a a1 then Some ((k1, y) :: d')
                             else option_map (cons (k1, y1)) (hdict_set h k y d')
        | _, _ => None
        end
    end.
  Definition set_item (l : loc) (k y : href) : HM unit :=
    h <- the_heap ;;
    match nth_error h l with
    | Some (HDict d) => d' <- budget (hdict_set h k y d) ;; store l (HDict d')
    | _ => raise (XRaw RType)
    end.
  (** r.append(y), for the list at [l] *)
  Definition append (l : loc) (y : href) : HM unit :=
    h <- the_heap ;;
    match nth_error h l with
    | Some (HList xs) => store l (HList (xs ++ [y]))
    | _ => raise (XRaw RAttr)
    end.

  Variable hcall : dhandler -> href -> ty -> HM href.

  (** datadumper.py 180-205 *)
  Definition hdump_with (x : href) (t : ty) : HM href :=
    v <- look x ;;
    h <- caches (fun s =>
            match cid_get (type_of v) (ds_cache s) with
            | Some h => (Ok h, s)
            | None =>
                match dfind cfg v with
                | inl h => (Ok h, mkDState ((type_of v, h) :: ds_cache s) (ds_dc s))
                | inr e => (Exc e, s)
                end
            end) ;;
    hcall h x t.

  (** 208-221 *)
  Fixpoint hattr_loop (x : href) (r : loc) (fs : list field) : HM href :=
    match fs with
    | [] => ret (HR r)
    | f :: fs' =>
        h <- the_heap ;;
        y <- lift (hgetattr h x (f_name f)) ;;
        if negb (f_repr f) then hattr_loop x r fs'
        else
          yv <- look y ;;
          hid <- lift (attr_hidden cfg f yv) ;;
          if hid : bool then hattr_loop x r fs'
          else z <- hdump_with y TAny ;;
               _ <- set_item r (HV (VStr (ext_name cfg f))) z ;;
               hattr_loop x r fs'
    end.
  Definition hattrdump (x : href) : HM href :=
    v <- look x ;;
    match ci_attrs (class_of w (type_of v)) with
    | Some fs => r <- alloc (HDict []) ;; hattr_loop x r fs
    | None => raise (XRaw RAttr)
    end.

  (** 224-250, 153: no parts, the results are new *)
  Definition hscalar (res : DM value) : HM href :=
    y <- caches res ;;
    match y with
    | VList l => r <- alloc (HList (map HV l)) ;; ret (HR r)
    | _ => ret (HV y)
    end.

  (** 253-259 *)
  Fixpoint hnt_loop (r : loc) (defaults : list (string * option value)) (fs : list (string * href)) : HM href :=
    match fs with
    | [] => ret (HR r)
    | (k, y) :: fs' =>
        yv <- look y ;;
        if d_hide cfg && match str_get k defaults with
                         | Some (Some d) => py_eqb d yv
                         | _ => false
                         end
        then hnt_loop r defaults fs'
        else z <- hdump_with y TAny ;;
             _ <- set_item r (HV (VStr k)) z ;;
             hnt_loop r defaults fs'
    end.
  Definition hnamedtupledump (x : href) : HM href :=
    v <- look x ;;
    h <- the_heap ;;
    match v with
    | VNT c _ => r <- alloc (HDict []) ;;
                 hnt_loop r (match ci_nt (class_of w c) with Some l => l | None => [] end) (fields_of h x)
    | _ => raise (XRaw RAttr)
    end.

  (** 262-280 *)
  Fixpoint hdc_loop (x : href) (r : loc) (fs : list field) (info : dcinfo) (names : list string) : HM href :=
    match names with
    | [] => ret (HR r)
    | k :: names' =>
        match find (fun f => String.eqb (f_name f) k) fs with
        | None => raise (XRaw RKey)
        | Some f =>
            h <- the_heap ;;
            y <- lift (hgetattr h x k) ;;
            yv <- look y ;;
            if d_hide cfg && match str_get k (dc_defaults info) with
                             | Some d => py_eqb d yv
                             | None => false
                             end
            then hdc_loop x r fs info names'
            else z <- hdump_with y (match str_get k (dc_hints info) with Some h => h | None => TAny end) ;;
                 _ <- set_item r (HV (VStr (ext_name cfg f))) z ;;
                 hdc_loop x r fs info names'
        end
    end.
  Definition hdataclassdump (x : href) : HM href :=
    v <- look x ;;
    let c := type_of v in
    match ci_dc (class_of w c) with
    | None => raise (XRaw RAttr)
    | Some fs =>
        info <- caches (fun s =>
                   match cid_get c (ds_dc s) with
                   | Some i => (Ok i, s)
                   | None =>
                       match dc_info w c fs with
                       | POk i => (Ok i, mkDState (ds_cache s) ((c, i) :: ds_dc s))
                       | PExc r => (Exc (XRaw r), s)
                       end
                   end) ;;
        r <- alloc (HDict []) ;;
        hdc_loop x r fs info (dc_fields info)
    end.

  (** 282-300: value.copy(), or a new list *)
  Fixpoint hdump_list (r : loc) (l : list href) : HM href :=
    match l with
    | [] => ret (HR r)
    | x :: l' => y <- hdump_with x TAny ;; _ <- append r y ;; hdump_list r l'
    end.
  Definition hiteratordump (x : href) (t : ty) : HM href :=
    h <- the_heap ;;
    match hiter h x with
    | None => raise (XRaw RType)
    | Some l =>
        if in_classes (d_basic cfg) (Dumper.item_type t) && ident_first cfg
        then r <- alloc (HList l) ;; ret (HR r)
        else r <- alloc (HList []) ;; hdump_list r l
    end.

  (** 148 *)
  Fixpoint hdict_loop (r : loc) (d : list (href * href)) : HM href :=
    match d with
    | [] => ret (HR r)
    | (k, x) :: d' =>
        k' <- hdump_with k TAny ;;
        x' <- hdump_with x TAny ;;
        h <- the_heap ;;
        b <- budget (hhash h k') ;;
        if b : bool then _ <- set_item r k' x' ;; hdict_loop r d'
        else raise (XRaw RType)
    end.

  (** calling the function of a handler *)
  Definition hbody (hd : dhandler) (x : href) (t : ty) : HM href :=
    match hd with
    | DIdent => ret x                                  (* 303-304 *)
    | DNamedTuple => hnamedtupledump x
    | DDataclass => hdataclassdump x
    | DIter => hiteratordump x t
    | DEnum => h <- the_heap ;;                        (* 147 *)
               match x with
               | HR l => match nth_error h l with Some (HEnum _ _ y) => hdump_with y TAny | _ => raise (XRaw RAttr) end
               | HV _ => raise (XRaw RAttr)
               end
    | DDict => h <- the_heap ;;
               match x with
               | HR l => match nth_error h l with
                         | Some (HDict d) => r <- alloc (HDict []) ;; hdict_loop r d
                         | _ => raise (XRaw RAttr)
                         end
               | HV _ => raise (XRaw RAttr)
               end
    | DAttrs => hattrdump x
    | DDatetime => v <- look x ;; hscalar (datetimedump w cfg v)
    | DTimedelta => v <- look x ;; hscalar (timedeltadump w v)
    | DPattern => v <- look x ;; hscalar (patterndump v)
    | DStr => v <- look x ;; hscalar (ret (VStr (w_str w v)))
    | DCustom _ => raise (XRaw (ROther "not modelled"))
    end.
End HDump.

Fixpoint hrun (w : world) (cfg : dconfig) (m n : nat) (hd : dhandler) (x : href) (t : ty) {struct n} : HM href :=
  match n with
  | 0 => fun s => (OOF, s)
  | S n' => hbody w cfg m (hrun w cfg m n') hd x t
  end.
(** Dumper.dump(x, annotated_type) *)
Definition hdump_ann (w : world) (cfg : dconfig) (m n : nat) (x : href) (t : ty) : HM href :=
  hdump_with cfg m (hrun w cfg m n) x t.

(** ** Vocabulary *)

(** in the heap [h] the object [x] is the tree [v] *)
Definition object (h : heap) (x : href) (v : value) : Prop := exists n, read n (at_ h) x = Some v.
(** dump(x) with the caches [s] and the heap [h] finishes with the outcome [r],
    the caches [s'] and the heap [h'] *)
Definition hdumps (w : world) (cfg : dconfig) (s : dstate) (h : heap) (x : href) (r : res href) (s' : dstate) (h' : heap) : Prop :=
  r <> OOF /\ exists m n, hdump_ann w cfg m n x TAny (s, h) = (r, (s', h')).
(** every object of [h] is as it was in [h'] *)
Definition kept_in (h h' : heap) : Prop := forall l o, at_ h l = Some o -> at_ h' l = Some o.
(** [x] is made of lists and of dictionaries with scalar keys, at the places
    [ls] of the heap, one for each part, and of scalars *)
Inductive made_of (h : heap) : href -> list loc -> Prop :=
| mo_scalar v : scalar v = true -> made_of h (HV v) []
| mo_list l xs lss : nth_error h l = Some (HList xs) -> Forall2 (made_of h) xs lss -> made_of h (HR l) (l :: List.concat lss)
| mo_dict l d lss : nth_error h l = Some (HDict d) -> (forall k y, In (k, y) d -> exists a, k = HV a /\ scalar a = true) ->
    Forall2 (made_of h) (map snd d) lss -> made_of h (HR l) (l :: List.concat lss).

(** a program changes [h] into [h']: it creates objects, and writes to those
    and to the ones at the places [P] *)
Inductive edits (P : loc -> Prop) (h : heap) : heap -> Prop :=
| ed_none : edits P h h
| ed_new h' o : edits P h h' -> edits P h (h' ++ [o])
| ed_write h' l o : edits P h h' -> P l \/ List.length h <= l -> edits P h (put h' l o).
