-Q theories Verif

theories/ListAux.v
theories/FieldDef.v
theories/FpInst.v
theories/PolyList.v
theories/MleMath.v
theories/M_Mle.v
theories/P_Mle.v
theories/P_Eq.v
theories/Props_Mle.v
theories/M_Interp.v
theories/P_Interp.v
theories/Props_Interp.v
theories/M_Sumcheck.v
theories/P_ScVerify.v
theories/P_ScProve.v
theories/P_ScProve2.v
theories/P_ScBatch.v
theories/P_ScFinal.v
theories/M_ScParallel.v
theories/P_ScParallel.v
theories/P_ScApi.v
theories/Props_Sumcheck.v
theories/P_Count.v
theories/M_SamePoly.v
theories/P_SamePoly.v
theories/Props_SamePoly.v
theories/M_LogUp.v
theories/P_LogUp.v
theories/P_LogUp2.v
theories/P_LogUp3.v
theories/P_LogUp4.v
theories/P_LogUp5.v
theories/P_LogUp6.v
theories/P_LogUp7.v
theories/P_LogUp8.v
theories/P_LogUp9.v
theories/Props_LogUp.v
theories/M_Lookup.v
theories/P_Lookup.v
theories/P_Lookup2.v
theories/P_Lookup3.v
theories/Props_Lookup.v
theories/M_Tables.v
theories/P_Tables.v
theories/P_Tables2.v
theories/P_Tables3.v
theories/P_Tables4.v
theories/Props_Tables.v
theories/FpGold.v
theories/M_Quant.v
theories/P_Quant.v
theories/M_Requant.v
theories/P_Requant.v
theories/P_Requant2.v
theories/Props_Quant.v
theories/M_BitSize.v
theories/P_BitSize.v
theories/Props_BitSize.v
theories/M_Graph.v
theories/P_Graph.v
theories/P_Graph2.v
theories/P_Graph3.v
theories/P_Graph4.v
theories/P_Graph5.v
theories/P_Graph6.v
theories/Props_Graph.v
theories/M_Verifier.v
theories/P_Verifier.v
theories/P_Verifier2.v
theories/P_Verifier3.v
theories/P_Verifier4.v
theories/P_Verifier5.v
theories/P_Verifier6.v
theories/Props_Verifier.v
theories/M_Tensor.v
theories/P_Tensor.v
theories/P_Tensor2.v
theories/P_Tensor3.v
theories/P_Tensor4.v
theories/M_Pool.v
theories/P_Pool.v
theories/M_Pad.v
theories/P_Pad.v
theories/P_Pad2.v
theories/P_Pad3.v
theories/Props_Tensor.v
theories/Props_Pad.v
theories/M_Fft.v
theories/P_Fft.v
theories/P_Fft2.v
theories/P_Fft3.v
theories/P_Fft4.v
theories/Props_Fft.v
theories/M_Layers.v
theories/P_Layers.v
theories/P_Layers2.v
theories/P_Layers3.v
theories/P_Layers4.v
theories/P_Layers5.v
theories/Props_Layers.v
theories/M_Sop.v
theories/P_Sop.v
theories/M_Transformer.v
theories/P_Transformer.v
theories/P_Transformer2.v
theories/P_Transformer3.v
theories/P_Transformer4.v
theories/P_Transformer5.v
theories/Props_Transformer.v
theories/M_Hash.v
theories/M_Merkle.v
theories/P_Merkle.v
theories/P_Merkle2.v
theories/P_Hash.v
theories/P_Hash2.v
theories/P_Hash3.v
theories/P_Hash4.v
theories/Props_Merkle.v
theories/M_Sync.v
theories/P_Sync.v
theories/Props_Sync.v
theories/M_Commit.v
theories/P_Commit.v
theories/P_Commit2.v
theories/P_Commit3.v
theories/Props_Commit.v
theories/M_Code.v
theories/M_Basefold.v
theories/P_Code.v
theories/P_Code2.v
theories/P_Code3.v
theories/P_Code4.v
theories/P_Code5.v
theories/P_Basefold.v
theories/P_Basefold2.v
theories/P_Basefold3.v
theories/P_Basefold4.v
theories/P_Basefold5.v
theories/P_Basefold6.v
theories/Props_Basefold.v
theories/P_BasefoldSc.v
theories/Props_SumOpen.v
theories/P_BasefoldSb.v
theories/Props_BatchOpen.v
theories/P_BasefoldGb.v
theories/P_BasefoldGq.v
theories/Props_GeneralOpen.v
theories/M_Pooling.v
theories/P_Pooling.v
theories/P_Pooling2.v
theories/P_Activation.v
theories/Props_Pooling.v
theories/M_Store.v
theories/P_Store.v
theories/Props_Store.v
theories/M_Service.v
theories/P_Service.v
theories/Props_Service.v
theories/M_Conv.v
theories/P_Conv.v
theories/P_Conv2.v
theories/P_Conv3.v
theories/P_Conv4.v
theories/P_Conv5.v
theories/P_Conv6.v
theories/P_Conv7.v
theories/P_Conv8.v
theories/P_Conv9.v
theories/P_Conv10.v
theories/Props_Conv.v
theories/M_RequantP.v
theories/P_RequantP.v
theories/P_RequantP2.v
theories/P_RequantP3.v
theories/Props_RequantP.v
theories/M_LayerNorm.v
theories/P_LayerNorm.v
theories/P_LayerNorm2.v
theories/P_LayerNorm3.v
theories/P_LayerNorm4.v
theories/P_LayerNorm5.v
theories/P_LayerNorm6.v
theories/Props_LayerNorm.v
theories/M_AddPos.v
theories/P_AddPos.v
theories/P_AddPos2.v
theories/P_AddPos3.v
theories/P_AddPos4.v
theories/Props_AddPos.v
theories/M_AddQuant.v
theories/P_AddQuant.v
theories/Props_AddQuant.v
theories/M_Qkv.v
theories/P_Qkv.v
theories/P_Qkv2.v
theories/P_Qkv3.v
theories/Props_Qkv.v
theories/M_Softmax.v
theories/P_Softmax.v
theories/P_Softmax2.v
theories/P_Softmax3.v
theories/P_Softmax4.v
theories/P_Softmax5.v
theories/P_Softmax6.v
theories/P_Softmax7.v
theories/Props_Softmax.v
theories/M_Mha.v
theories/P_Mha.v
theories/Props_Mha.v
theories/P_Mha2.v
theories/Props_Causal.v
theories/M_Driver.v
theories/P_Driver.v
theories/Props_Driver.v
theories/P_Driver2.v
theories/P_Driver3.v
theories/P_Driver4.v
theories/P_Driver5.v
theories/Props_Decoder.v
theories/M_Input.v
theories/P_Input.v
theories/Props_Input.v
theories/M_BitRev.v
theories/P_BitRev.v
theories/Props_BitRev.v
theories/P_QuantErr.v
theories/Props_QuantErr.v
theories/M_Metadata.v
theories/P_Metadata.v
theories/P_Tracker.v
theories/Props_Metadata.v
theories/Props_Tracker.v
