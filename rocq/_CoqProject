-Q theories Verif
theories/M_Quoter.v
theories/S_Quoter.v
theories/L_Quoter.v
theories/P_Quoter.v
theories/M_Utf8.v
theories/S_Utf8.v
theories/L_Utf8.v
theories/P_Utf8.v
theories/M_Limit.v
theories/P_Limit.v
theories/M_Edit.v
theories/P_Edit.v
theories/M_Lexica.v
theories/L_Lexica.v
theories/P_Lexica.v
theories/M_ListCoders.v
theories/L_ListCoders.v
theories/P_ListCoders.v
theories/M_Glob.v
theories/P_Glob.v
theories/M_KLEnd.v
theories/P_KLEnd.v
theories/M_Cutter.v
theories/P_Cutter.v
theories/M_StringFrag.v
theories/P_StringFrag.v
theories/M_Agenda.v
theories/P_Agenda.v
theories/M_Web.v
theories/P_Web.v
theories/M_Session.v
theories/P_Session.v
theories/M_Http.v
theories/S_Http.v
theories/P_Http.v
theories/M_Upload.v
theories/P_Upload.v
theories/M_OrdSet.v
theories/L_OrdSet.v
theories/M_Aliaser.v
theories/P_Aliaser.v
theories/M_Tags.v
theories/P_Tags.v
theories/M_ZHash.v
theories/L_ZHash.v
theories/P_ZHash.v
theories/M_Items.v
theories/P_Items.v
theories/M_Huffman.v
theories/L_Huffman.v
theories/L_HuffmanTree.v
theories/L_HuffmanOpt.v
theories/P_Huffman.v
theories/M_Fsa.v
theories/S_Fsa.v
theories/L_Fsa.v
theories/L_FsaTraverse.v
theories/L_FsaLang.v
theories/L_FsaOps.v
theories/L_FsaMin.v
theories/L_FsaInter.v
theories/P_Fsa.v
theories/M_BinFsa.v
theories/L_BinFsa.v
theories/L_Daciuk.v
theories/P_BinFsa.v
theories/M_HashFsa.v
theories/L_HashFsa.v
theories/P_HashFsa.v
theories/M_MultiStore.v
theories/L_MultiStore.v
theories/P_MultiStore.v
theories/M_Lattice.v
theories/L_Lattice.v
theories/S_Lattice.v
theories/L_LatticeOps.v
theories/L_LatticeTidy.v
theories/P_Lattice.v
theories/M_LatticeWalk.v
theories/L_LatticeNodes.v
theories/P_LatticeWalk.v
theories/P_LatticeVertices.v
theories/P_LatticePath.v
theories/M_IterWriter.v
theories/P_IterWriter.v
theories/M_ChartParser.v
theories/L_ChartParser.v
theories/L_ChartRun.v
theories/L_ChartTags.v
theories/P_ChartParser.v
theories/M_LatticeCut.v
theories/L_LatticeMarks.v
theories/L_LatticeCut.v
theories/P_LatticeCut.v
theories/M_LatticeCorrect.v
theories/L_LatticeCorrect.v
theories/P_LatticeCorrect.v
theories/M_LatticeKin.v
theories/P_LatticeKin.v
theories/M_Psi.v
theories/L_Psi.v
theories/P_Psi.v
theories/M_Complete.v
theories/P_Complete.v
theories/M_Md5.v
theories/P_Md5.v
theories/M_PsiFile.v
theories/M_PsiLattice.v
theories/P_PsiFile.v
theories/P_PsiLattice.v
theories/M_PsiReader.v
theories/L_PsiReader.v
theories/P_PsiReader.v
theories/M_Bracketing.v
theories/L_Bracketing.v
theories/L_BracketPlaces.v
theories/L_BracketPattern.v
theories/P_Bracketing.v
theories/M_Symal.v
theories/P_Symal.v
theories/M_Minfsa.v
theories/L_Minfsa.v
theories/P_Minfsa.v
theories/M_Dag.v
theories/L_Dag.v
theories/L_DagSort.v
theories/L_DagFind.v
theories/P_Dag.v
theories/M_SimpleDag.v
theories/S_SimpleDag.v
theories/L_SimpleDag.v
theories/L_SimpleCopy.v
theories/L_SimpleDet.v
theories/L_SimpleFind.v
theories/P_SimpleDag.v
theories/M_MultiHash.v
theories/L_MultiHash.v
theories/P_MultiHash.v
theories/M_Intersector.v
theories/L_Intersector.v
theories/P_Intersector.v
theories/L_Prune.v
theories/S_Prune.v
theories/P_Prune.v
theories/M_Slist.v
theories/S_Slist.v
theories/L_Slist.v
theories/P_Slist.v
theories/M_Lm.v
theories/S_Lm.v
theories/L_Lm.v
theories/P_Lm.v
theories/M_Cube.v
theories/S_Cube.v
theories/L_Cube.v
theories/P_Cube.v
theories/M_Hyper.v
theories/P_Hyper.v
theories/M_Extract.v
theories/S_Extract.v
theories/L_Extract.v
theories/L_Hiero.v
theories/L_Once.v
theories/P_Extract.v
theories/M_Rules.v
theories/P_Rules.v
theories/M_Numeral.v
theories/S_Numeral.v
theories/L_Numeral.v
theories/P_Numeral.v
theories/M_Unumsunt.v
theories/P_Unumsunt.v
theories/P_Selector.v
theories/M_Selector.v
theories/M_PuddleText.v
theories/P_PuddleText.v
theories/M_PuddleLattice.v
theories/P_PuddleLattice.v
theories/M_PuddleSentence.v
theories/P_PuddleSentence.v
theories/M_PuddleActions.v
theories/P_PuddleActions.v
theories/M_PuddleTagset.v
theories/P_PuddleTagset.v
theories/M_Srx.v
theories/P_Srx.v
theories/M_TpRules.v
theories/P_TpRules.v
theories/M_Lamer.v
theories/P_Lamer.v
theories/M_LangGuess.v
theories/M_Detok.v
theories/P_LangGuess.v
theories/P_Detok.v
theories/M_MorfTags.v
theories/P_MorfTags.v
theories/M_Charsets.v
theories/M_Tiniconv.v
theories/P_Tiniconv.v
theories/P_EncConv.v
theories/M_Checksum.v
theories/P_Crc.v
theories/P_Adler.v
theories/M_XmlTree.v
theories/P_XmlTree.v
theories/P_XmlDoc.v
theories/M_SyntaxTree.v
theories/P_SyntaxTree.v
theories/P_SyntaxParse.v
theories/M_Score.v
theories/P_Score.v
theories/P_ScoreGroups.v
theories/M_Consolidate.v
theories/P_Consolidate.v
theories/M_ScoreRead.v
theories/P_ScoreRead.v
theories/M_Domain.v
theories/P_Domain.v
theories/M_LexWeight.v
theories/P_LexWeight.v
theories/M_GobioNum.v
theories/P_GobioNum.v
theories/M_PathFinder.v
theories/P_PathFinder.v
theories/M_NormJoin.v
theories/P_NormJoin.v
theories/M_LexBase.v
theories/P_LexBase.v
theories/M_MapKey.v
theories/P_MapKey.v
