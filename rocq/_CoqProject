-Q theories Verif
theories/PyBase.v
theories/LagsModel.v
theories/LagsSpec.v
theories/LagsProofs.v
theories/NamesModel.v
theories/NamesProofs.v
theories/LagsTheorems.v
theories/NamesTheorems.v
theories/ChecksModel.v
theories/ChecksProofs.v
theories/ChecksTheorems.v
theories/RegimesModel.v
theories/RegimesSpec.v
theories/RegimesProofs.v
theories/RegimesProofs2.v
theories/RegimesProofs3.v
theories/RegimesTheorems.v
theories/LinRegModel.v
theories/LinRegProofs.v
theories/LinRegProofs2.v
theories/LinRegProofs3.v
theories/LinRegTheorems.v
theories/InfoCritModel.v
theories/InfoCritTheorems.v
theories/RegWModel.v
theories/RegWSpec.v
theories/RegWProofs.v
theories/RegWProofs2.v
theories/RegWTheorems.v
theories/RegMultiModel.v
theories/RegMultiProofs.v
theories/RegMultiTheorems.v
theories/Mring.v
theories/FilterModel.v
theories/FilterProofs.v
theories/FilterTheorems.v
theories/MomentsTheorems.v
theories/Rinst.v
theories/MLModel.v
theories/MLSpec.v
theories/MLProofs.v
theories/MLTheorems.v
theories/MLTheorems2.v
theories/MLTheorems3.v
theories/MLTheorems4.v
theories/LMModel.v
theories/LMSpec.v
theories/LMProofs.v
theories/LMTheorems.v
theories/LMTheorems2.v
theories/LMTheorems3.v
theories/CacheModel.v
theories/CacheTheorems.v
theories/CacheTheorems2.v
theories/SearchModel.v
theories/SearchTheorems.v
theories/SearchTheorems2.v
theories/SkaterModel.v
theories/SkaterProofs.v
theories/SkaterProofs2.v
theories/SkaterTheorems.v
theories/SkaterTheorems2.v
theories/LoopModel.v
theories/LoopTheorems.v
theories/ProbitModel.v
theories/ProbitTheorems.v
theories/ProbitSpec.v
theories/ProbitTheorems2.v
theories/NormalDist.v
theories/ProbitTheorems3.v
theories/ProbitTheorems4.v
theories/NslxModel.v
theories/NslxTheorems.v
theories/NslxTheorems2.v
theories/Kron.v
theories/PanelModel.v
theories/PanelTheorems.v
theories/PanelTheorems2.v
theories/PanelTheorems3.v
theories/BskModel.v
theories/BskTheorems.v
theories/BskTheorems2.v
theories/BskTheorems3.v
theories/DgpModel.v
theories/DgpTheorems.v
theories/MultModel.v
theories/MultTheorems.v
theories/MultTheorems2.v
theories/MultTheorems3.v
theories/MultTheorems4.v
theories/SurModel.v
theories/SurTheorems.v
theories/SurTheorems2.v
theories/SurTheorems3.v
theories/SurTheorems4.v
theories/SurTheorems5.v
theories/Sur3Model.v
theories/Sur3Theorems.v
theories/DiagModel.v
theories/DiagProofs.v
theories/DiagTheorems.v
theories/DiagTheorems2.v
theories/DiagTheorems3.v
theories/DiagTheorems4.v
theories/KkpModel.v
theories/KkpTheorems.v
theories/KkpTheorems2.v
theories/KkpTheorems3.v
theories/PfeModel.v
theories/PfeSpec.v
theories/PfeTheorems.v
theories/PfeTheorems2.v
theories/PfeTheorems3.v
theories/PfeTheorems4.v
theories/PfeTheorems5.v
theories/PreModel.v
theories/PreSpec.v
theories/PreTheorems.v
theories/PreTheorems2.v
theories/PreTheorems3.v
theories/PreTheorems4.v
theories/PrrModel.v
theories/PrrSpec.v
theories/PrrTheorems.v
theories/PrrTheorems2.v
theories/PrrTheorems3.v
theories/PrrTheorems4.v
theories/PrrTheorems5.v
theories/SueModel.v
theories/SueSpec.v
theories/SueProofs.v
theories/SueTheorems.v
theories/SueTheorems2.v
theories/SueTheorems3.v
theories/SueTheorems4.v
theories/SueTheorems5.v
theories/MxDerivSpec.v
theories/MxDeriv.v
theories/SuvModel.v
theories/SuvSpec.v
theories/SuvTheorems.v
theories/SuvTheorems2.v
theories/SuvTheorems3.v
theories/GvmSpec.v
theories/GvmProofs.v
theories/GvmProofs2.v
theories/GvmModel.v
theories/GvmTheorems.v
theories/GvmTheorems2.v
theories/GvmTheorems3.v
theories/Pr2Model.v
theories/Pr2Theorems.v
theories/Pr2Theorems2.v
theories/OptkModel.v
theories/OptkSpec.v
theories/OptkTheorems.v
theories/OptkTheorems2.v
theories/OptkTheorems3.v
theories/SlagModel.v
theories/SlagTheorems.v
theories/GlrModel.v
theories/GlrTheorems.v
theories/OutModel.v
theories/OutProofs.v
theories/OutTheorems.v
theories/ChoTheorems.v
theories/TypModel.v
theories/TypProofs.v
theories/TypTheorems.v
theories/FwdModel.v
theories/FwdTheorems.v
theories/EndModel.v
theories/EndTheorems.v
theories/EndNModel.v
theories/EndNTheorems.v
theories/HausModel.v
theories/HausTheorems.v
theories/HausTheorems2.v
theories/HausTheorems3.v
theories/RegOptModel.v
theories/RegOptTheorems.v
theories/HacModel.v
theories/HacTheorems.v
theories/HacTheorems2.v
