(** Model of the file helpers of sm_boost/include/sm/boost/serialization.hpp 15-104: save, load, save_txt, load_txt, save_xml, load_xml, for the
    objects of KinSer_Model.  A file holds the format of the archive and its items (None: no archive header could be read). *)
From Coq Require Export String Ascii.
From Verif Require Export KinSer_Model.
Local Open Scope string_scope.

Inductive kind := Binary | Text | Xml.
(** how a call ends: normally, std::runtime_error of SM_ASSERT_TRUE, an exception of the archive, sm::eigen::SerializationException *)
Inductive fout := Fine | RuntimeE | ArchiveE | EigenE.
(** characters boost accepts in a tag (XML_name in basic_xml_oarchive.ipp): letters, digits, '-', '.', ':', '_', and those above 127 *)
Definition tag_char (c : ascii) : bool :=
  let n := nat_of_ascii c in
  (127 <? n)%nat || (n =? 45)%nat || (n =? 46)%nat || ((48 <=? n)%nat && (n <=? 58)%nat) || ((65 <=? n)%nat && (n <=? 90)%nat) || (n =? 95)%nat || ((97 <=? n)%nat && (n <=? 122)%nat).
Definition valid_tag (s : string) : bool := forallb tag_char (list_ascii_of_string s).

Section SerFile.
  Variable A : Type.
  Record file := File { fkind : kind; fitems : list (item A) }.
  Definition disk := string -> option file.
  Definition upd (d : disk) (p : string) (f : file) : disk := fun q => if String.eqb p q then Some f else d q.
  (** the device: the paths that can be opened for writing, how many items it still takes, how many the stream buffers *)
  Record device := Device { openable : string -> bool; room : nat; buffer : nat }.

  (** constructing the stream truncates the file; items that do not fit are lost, which the archive notices only while it is still writing, not when
      the destructor of the stream writes the buffer.  The tag is for XML only; an empty one is replaced (73-76, 92-95). *)
  Definition write_archive (dev : device) (d : disk) (k : kind) (tag : string) (s : schema) (v : list A) (p : string) : fout * disk :=
    if negb (openable dev p) then (RuntimeE, d)
    else let tag := if Nat.eqb (String.length tag) 0 then "object" else tag in
      match k with
      | Xml => if valid_tag tag then (let items := ssave s v in ((if (room dev + buffer dev <? length items)%nat then ArchiveE else Fine), upd d p (File Xml (firstn (room dev) items))))
               else (ArchiveE, upd d p (File Xml []))
      | _ => let items := ssave s v in ((if (room dev + buffer dev <? length items)%nat then ArchiveE else Fine), upd d p (File k (firstn (room dev) items)))
      end.
  Definition kind_eqb (a b : kind) : bool := match a, b with Binary, Binary | Text, Text | Xml, Xml => true | _, _ => false end.
  (** the archive header tells the formats apart; the tag of the top-level object is not compared (basic_xml_iarchive::load_end) *)
  Definition read_archive (d : disk) (k : kind) (tag : string) (s : schema) (old : list A) (p : string) : fout * list A :=
    match d p with
    | None => (RuntimeE, old)
    | Some f => if negb (kind_eqb (fkind f) k) then (ArchiveE, old)
                else match sload s old (fitems f) with
                     | (Done, v, _) => (Fine, v) | (VersionE, v, _) => (RuntimeE, v) | (SizeE, v, _) => (EigenE, v) | (StreamE, v, _) => (ArchiveE, v)
                     end
    end.
  (** save (15-23), load (25-34) *)
  Definition save_bin dev d s v p := write_archive dev d Binary "" s v p.
  Definition load_bin d s old p := read_archive d Binary "" s old p.
  (** save_txt (38-46), load_txt (48-57) *)
  Definition save_txt dev d s v p := write_archive dev d Text "" s v p.
  Definition load_txt d s old p := read_archive d Text "" s old p.
  (** save_xml, load_xml (61-104) *)
  Definition save_xml3 dev d s v tag p := write_archive dev d Xml tag s v p.
  Definition load_xml3 d s old tag p := read_archive d Xml tag s old p.
  Definition save_xml2 dev d s v p := save_xml3 dev d s v "object" p.
  Definition load_xml2 d s old p := load_xml3 d s old "object" p.
End SerFile.
Arguments File {A}. Arguments fkind {A}. Arguments fitems {A}. Arguments upd {A}.
Arguments save_bin {A}. Arguments load_bin {A}. Arguments save_txt {A}. Arguments load_txt {A}. Arguments save_xml3 {A}. Arguments load_xml3 {A}. Arguments save_xml2 {A}. Arguments load_xml2 {A}.
