-Q theories Verif
theories/BarrierModel.v
theories/BarrierProofs.v
theories/BarrierSpec.v
theories/Base64Model.v
theories/Base64Proofs.v
theories/Base64Props.v
theories/Base64Round.v
theories/Base64Spec.v
theories/BignumModel.v
theories/BignumProofs.v
theories/BignumProofs2.v
theories/BignumProofs3.v
theories/BignumProofs4.v
theories/BignumProofs5.v
theories/BignumProofs6.v
theories/BitsModel.v
theories/BitsProofs.v
theories/BitsProofs2.v
theories/BitsProofs3.v
theories/BitsProofs4.v
theories/BitsProps.v
theories/BitsSpec.v
theories/Cb2Model.v
theories/Cb2Proofs.v
theories/Cb2Props.v
theories/Cb3Model.v
theories/Cb3Proofs.v
theories/Cb3Proofs2.v
theories/Cb3Props.v
theories/Cb3Spec.v
theories/Cb4Model.v
theories/Cb4Proofs.v
theories/Cb4Props.v
theories/CbModel.v
theories/CbProofs.v
theories/CbProps.v
theories/CbSpec.v
theories/CharsetModel.v
theories/CharsetProofs.v
theories/CharsetProofs2.v
theories/CharsetProofs3.v
theories/CharsetProofs4.v
theories/CharsetProofs5.v
theories/CharsetProps.v
theories/CharsetSpec.v
theories/CmpModel.v
theories/CmpProofs.v
theories/CmpProofs2.v
theories/CmpProofs3.v
theories/CmpProofs4.v
theories/CmpProps.v
theories/CmpSpec.v
theories/CplModel.v
theories/CplProofs.v
theories/CplProps.v
theories/CplSpec.v
theories/EqualHash.v
theories/EqualInter.v
theories/EqualModel.v
theories/EqualProofs.v
theories/EqualProps.v
theories/EqualSpec.v
theories/EqualUf.v
theories/FloModel.v
theories/FloProofs.v
theories/FloProofs10.v
theories/FloProofs2.v
theories/FloProofs3.v
theories/FloProofs4.v
theories/FloProofs5.v
theories/FloProofs6.v
theories/FloProofs7.v
theories/FloProofs8.v
theories/FloProofs9.v
theories/FloProps.v
theories/FloSpec.v
theories/GfModel.v
theories/GfProofs.v
theories/GfProofs2.v
theories/GfProofs3.v
theories/GfProofs4.v
theories/GfProps.v
theories/GfSpec.v
theories/HashApi.v
theories/HashModel.v
theories/HashProofs.v
theories/HashProofs2.v
theories/HashProps.v
theories/HashSpec.v
theories/HeapModel.v
theories/HeapProofs.v
theories/HeapProofs2.v
theories/HeapProofs3.v
theories/HeapProps.v
theories/HeapSpec.v
theories/IdequeModel.v
theories/IdequeProofs.v
theories/IdequeProps.v
theories/IdequeSpec.v
theories/ImapModel.v
theories/ImapProofs.v
theories/ImapProps.v
theories/ImapSpec.v
theories/InexModel.v
theories/InexProofs.v
theories/InexProps.v
theories/InexSpec.v
theories/IntModel.v
theories/IntProofs.v
theories/IntProofs2.v
theories/IntProofs3.v
theories/IntProofs4.v
theories/IntProofs5.v
theories/IntProofs6.v
theories/IntProofs7.v
theories/IntProps.v
theories/IntSpec.v
theories/IntTextModel.v
theories/IntTextProofs.v
theories/IntTextSpec.v
theories/LatchModel.v
theories/LcModel.v
theories/LcProofs.v
theories/LcProofs2.v
theories/LcProps.v
theories/LcSpec.v
theories/ListModel.v
theories/ListProofs.v
theories/ListProofs2.v
theories/ListProofs3.v
theories/ListProofs4.v
theories/ListProofs5.v
theories/ListProps.v
theories/ListSpec.v
theories/LvModel.v
theories/LvProofs.v
theories/LvProofs2.v
theories/LvProps.v
theories/LvSpec.v
theories/LzModel.v
theories/LzProofs.v
theories/LzProps.v
theories/LzSpec.v
theories/MtQueueModel.v
theories/MtQueueProofs.v
theories/MtQueueProps.v
theories/MtQueueSpec.v
theories/MtQueueWake.v
theories/MutexModel.v
theories/MutexProofs.v
theories/MutexProofs2.v
theories/MutexProps.v
theories/MutexSpec.v
theories/OutModel.v
theories/OutProofs.v
theories/OutProofs2.v
theories/OutProofs3.v
theories/OutProps.v
theories/OutSpec.v
theories/Outcome.v
theories/PortModel.v
theories/PortProofs.v
theories/PortProofs2.v
theories/PortProofs3.v
theories/PortProofs4.v
theories/PortProps.v
theories/PortSpec.v
theories/PromModel.v
theories/PromProofs.v
theories/PromProofs2.v
theories/PromProofs3.v
theories/PromProps.v
theories/PromSpec.v
theories/QpModel.v
theories/QpProofs.v
theories/QpProps.v
theories/QpSpec.v
theories/QueueModel.v
theories/QueueProofs.v
theories/QueueProps.v
theories/QueueSpec.v
theories/RatModel.v
theories/RatProofs.v
theories/RatProofs2.v
theories/RatProofs3.v
theories/RatProps.v
theories/RatSpec.v
theories/RegexAtom.v
theories/RegexComp.v
theories/RegexDec.v
theories/RegexExec.v
theories/RegexMain.v
theories/RegexModel.v
theories/RegexOpt.v
theories/RegexProps.v
theories/RegexScope.v
theories/RegexSpec.v
theories/RegexVm.v
theories/RwModel.v
theories/RwProofs.v
theories/RwProofs2.v
theories/RwProofs3.v
theories/RwProofs4.v
theories/RwProofs5.v
theories/RwProps.v
theories/RwSpec.v
theories/RzModel.v
theories/RzModel2.v
theories/RzProofs.v
theories/RzProofs2.v
theories/RzProofs3.v
theories/RzProofs4.v
theories/RzProofs5.v
theories/RzProofs6.v
theories/RzProps.v
theories/RzSpec.v
theories/RzSpec2.v
theories/SearchModel.v
theories/SearchProofs.v
theories/SearchProofs2.v
theories/SearchProps.v
theories/SearchSpec.v
theories/SemModel.v
theories/SemaProofs.v
theories/SemaSpec.v
theories/SkewModel.v
theories/SkewProofs.v
theories/SkewProofs2.v
theories/SkewProofs3.v
theories/SkewProps.v
theories/SkewSpec.v
theories/SortModel.v
theories/SortProofs.v
theories/SortProofs2.v
theories/SortProofs3.v
theories/SortProofs4.v
theories/SortProofs5.v
theories/SortProofs6.v
theories/SortProps.v
theories/SortSpec.v
theories/SparseMap.v
theories/SparseMat.v
theories/SparseMatProofs.v
theories/SparseMatProofs2.v
theories/SparseMatProps.v
theories/SparseModel.v
theories/SparseNode.v
theories/SparseSpec.v
theories/SparseTab.v
theories/SparseTabProofs.v
theories/SparseTabProps.v
theories/SparseTrie.v
theories/SparseTrie2.v
theories/SparseTrie3.v
theories/SparseVec.v
theories/SparseVecInst.v
theories/SparseVecProofs.v
theories/SparseVecProofs2.v
theories/SparseVecProps.v
theories/StringModel.v
theories/StringProofs.v
theories/StringProps.v
theories/StringSpec.v
theories/SynModel.v
theories/SynProofs.v
theories/SynProofs2.v
theories/SynProofs3.v
theories/SynProofs4.v
theories/SynProps.v
theories/SynSpec.v
theories/SyncProps.v
theories/TopoModel.v
theories/TopoProofs.v
theories/TopoProps.v
theories/TopoSpec.v
theories/TreeApi.v
theories/TreeModel.v
theories/TreeProofs.v
theories/TreeProofs2.v
theories/TreeProofs3.v
theories/TreeProofs4.v
theories/TreeProps.v
theories/TreeSpec.v
theories/UriModel.v
theories/UriProofs.v
theories/UriProps.v
theories/UriSpec.v
theories/Utf8Model.v
theories/Utf8Proofs.v
theories/Utf8Props.v
theories/Utf8Spec.v
theories/WindModel.v
theories/WindProofs.v
theories/WindProps.v
theories/WindSpec.v
