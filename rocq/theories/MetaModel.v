(** Model of include/edsp/io/metadata.hpp and internal/metadata/libtag_impl.hpp.  TagLib is
    represented by what its documentation says of the five functions used: [FileRef(name)] reads the
    tag when it is made or holds none, [tag()] is then a null pointer, and [to8Bit()] without
    argument gives the low eight bits of every code unit (exact for Latin-1, one [char] per unit). *)
From Verif Require Export StringModel.
Local Open Scope Z_scope.

(** The fields of a tag; texts are lists of code units (UTF-16). *)
Record tag := { tag_title : list Z; tag_artist : list Z; tag_album : list Z; tag_genre : list Z; tag_track : Z; tag_year : Z }.
(** TagLib::FileRef: [None] for a file that is missing or of an unknown type. *)
Definition file_ref := option tag.
Definition to8bit (s : list Z) : list Z := map (fun c => let b := c mod 256 in if b <? 128 then b else b - 256) s.

(** metadata.hpp:29 and libtag_impl.hpp:32: the name goes through [const char*] twice; [disk] is what
    TagLib finds under a name at that moment. *)
Definition metadata_new (disk : list Z -> file_ref) (file : list Z) : file_ref := disk (c_str (c_str file)).
(** libtag_impl.hpp:34-56 through metadata.hpp:35-76: the pointer is dereferenced. *)
Definition with_tag {A} (m : file_ref) (f : tag -> A) : res A := match m with Some t => Ok (f t) | None => UB end.
Definition md_title (m : file_ref) : res (list Z) := with_tag m (fun t => to8bit (tag_title t)).
Definition md_artist (m : file_ref) : res (list Z) := with_tag m (fun t => to8bit (tag_artist t)).
Definition md_album (m : file_ref) : res (list Z) := with_tag m (fun t => to8bit (tag_album t)).
Definition md_genre (m : file_ref) : res (list Z) := with_tag m (fun t => to8bit (tag_genre t)).
Definition md_track (m : file_ref) : res Z := with_tag m tag_track.
Definition md_year (m : file_ref) : res Z := with_tag m tag_year.
