MUTS=[]
def m(id,f,defn,old,new,claim,*more):
    MUTS.append(dict(id=id,definition=f'{f}.v {defn}',edits=[(f,old,new)]+list(more),claim=claim,edit=f'{old}  =>  {new}'))
X='Mxt'; J='Json'; S='Scanner'
m('my1',X,'mxt_wordchar','RBetween 0x21 MaxRune','RBetween 0x20 MaxRune','C158: names end at a space')
m('my2',X,'mxt_marker','AReader (mk_zom (mar mWordChar))].','AReader (mk_many (mar mWordChar))].','C158: a marker may be // alone')
m('my3',X,'mxt_comment','mk_to (AReader (RNamed','mk_past (AReader (RNamed','C158: the comment ends before the arrow')
m('my4',X,'mxt_salt','mk_seq [AReader (mk_many (ARune 0x20)); AReader mxt_salt_head','mk_seq [AReader (mk_zom (ARune 0x20)); AReader mxt_salt_head','C158: a space before the salt')
m('my5',X,'mxt_header','AReader (mk_opt (mar mSalt))]','mar mSalt]','C158: a header may have no salt')
m('my6',X,'mxt_emptycontent','AReader (RAt (RRule mNextMarker))','AReader (RRule mNextMarker)','C158: the next marker is not part of the empty content')
m('my7',X,'mxt_chunk','mk_any [mar mEmptyContent; AReader (mk_seq [mar mNL; mar mContent])]','mk_any [AReader (mk_seq [mar mNL; mar mContent]); mar mEmptyContent]','C158: a chunk followed by a marker has no content')
m('my8',X,'mxt_header','mar mMarker; AReader (mk_many (ARune 0x20)); mar mName','mar mMarker; AReader (mk_zom (ARune 0x20)); mar mName','C158: a space before the name')
m('my9',X,'mxt','(lit "mxt parse error: ")','(lit "parse error: ")','C157: the text of errors')
m('my10',X,'mxt_fields','rule_field "Salt" "salt"','rule_field "Salt" "word"','C158: parts have the names of the rules')
m('my11',X,'mxt_content','[mar mNextMarker; AReader RAtEnd]','[AReader RAtEnd; AReader (RAt (mar_ mNextMarker))]'.replace('(mar_ mNextMarker)','(RRule mNextMarker)'),'none: content ends at the same place')
m('jk1',J,'json_fields','rule_field "Key" "key"','rule_field "Key" "string"','C160: keys are told as keys')
